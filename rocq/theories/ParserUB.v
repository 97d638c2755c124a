(** C35: exactly which keys make the parser recurse without end. *)
From Coq Require Import String Ascii NArith List Lia ZArith Bool.
From Verif Require Import Outcome Num ExprModel ExprSpec ExprBase PropExpr ParserModel ParserSpec ParserBase ParserProofs ParserSound ParserComplete PropParser.
Import ListNotations.
Open Scope nat_scope.
Open Scope string_scope.

(** ** Specification: a dictionary that is an operand of an operator or a
    function, anywhere in the expression *)
Section Spec.
Context {K : Type}.
Fixpoint dictionary_operand (e : expr K) : Prop :=
  match e with
  | EConst _ | EVar _ => False
  | EUn _ a => is_dictionary a \/ dictionary_operand a
  | EBin _ l r => is_dictionary l \/ is_dictionary r \/ dictionary_operand l \/ dictionary_operand r
  | EArr es => fold_right (fun a P => dictionary_operand a \/ P) False es
  | EDict d => fold_right (fun p P => dictionary_operand (snd p) \/ P) False d
  end.
End Spec.

Section Generic.
Context {K : Type} `{EN : ENum K}.
Variable read : string -> K.
Variable show : K -> string.
Notation denote := (denote read).
Notation sentence := (sentence read).

(** ** Printing *)
Lemma ebp_ub (e : expr K) : ebp e = UB <-> is_dictionary e.
Proof. destruct e; cbn; split; intros; try discriminate; try contradiction; auto; destruct o; discriminate. Qed.
Lemma ebp_def (e : expr K) : (exists b, ebp e = Ret b) \/ is_dictionary e.
Proof. destruct e; cbn; eauto. Qed.
Lemma oseq_ub {A} (l : list (outcome A)) : Forall (fun x => x = UB \/ exists a, x = Ret a) l ->
  (oseq l = UB \/ exists a, oseq l = Ret a) /\ (oseq l = UB <-> Exists (fun x => x = UB) l).
Proof.
  induction 1 as [|x l H F (IH1 & IH2)]; cbn [oseq].
  - split; [right; eexists; reflexivity|]. split; [discriminate|inversion 1].
  - destruct H as [-> | [a ->]]; cbn [obind].
    + split; [left; reflexivity|]. split; [left; reflexivity|reflexivity].
    + destruct IH1 as [E | [b E]]; rewrite E in *; cbn [obind].
      * split; [left; reflexivity|]. split; [intros _; right; apply IH2; reflexivity|reflexivity].
      * split; [right; eexists; reflexivity|]. split; [discriminate|].
        inversion 1; subst; [discriminate|]. apply IH2 in H1. discriminate.
Qed.
Lemma repr_cases fp (e : expr K) :
  (repr show fp e = UB \/ exists s, repr show fp e = Ret s) /\ (repr show fp e = UB <-> dictionary_operand e).
Proof.
  induction e as [c|x|o a IH|o l r IHl IHr|es IH|d IH] using expr_ind'; cbn [repr dictionary_operand].
  - split; [right; eexists; reflexivity|]. split; [discriminate|contradiction].
  - split; [right; eexists; reflexivity|]. split; [discriminate|contradiction].
  - destruct IH as ([E | [s E]] & I); rewrite E in *; cbn [obind].
    + split; [left; reflexivity|]. tauto.
    + destruct (ebp_def a) as [[b B] | B].
      * rewrite B. cbn [obind]. split; [right; eexists; reflexivity|]. split; [discriminate|].
        intros [D | D]; [apply ebp_ub in D; congruence|apply I in D; discriminate].
      * assert (X : ebp a = UB) by (apply ebp_ub, B). rewrite X. cbn [obind]. split; [left; reflexivity|]. tauto.
  - destruct (ebp_def l) as [[bl Bl] | Bl];
      [|assert (X : ebp l = UB) by (apply ebp_ub, Bl); rewrite X; cbn [obind]; split; [left; reflexivity|tauto]].
    rewrite Bl. cbn [obind].
    destruct (ebp_def r) as [[br Br] | Br];
      [|assert (X : ebp r = UB) by (apply ebp_ub, Br); rewrite X; cbn [obind]; split; [left; reflexivity|tauto]].
    rewrite Br. cbn [obind].
    assert (Nl : ~ is_dictionary l) by (intros D; apply ebp_ub in D; congruence).
    assert (Nr : ~ is_dictionary r) by (intros D; apply ebp_ub in D; congruence).
    destruct IHl as ([E | [s E]] & Il); rewrite E in *; cbn [obind]; [split; [left; reflexivity|tauto]|].
    destruct IHr as ([F | [t F]] & Ir); rewrite F in *; cbn [obind]; [split; [left; reflexivity|tauto]|].
    split; [right; eexists; reflexivity|]. split; [discriminate|].
    intros [D | [D | [D | D]]]; try tauto; [apply Il in D|apply Ir in D]; discriminate.
  - destruct (oseq_ub (map (repr show fp) es)) as (A & B).
    { apply Forall_map. eapply Forall_impl; [|exact IH]. intros a H. apply H. }
    assert (C : Exists (fun x => x = UB) (map (repr show fp) es) <-> fold_right (fun a P => dictionary_operand a \/ P) False es).
    { clear A B. induction IH as [|a l (_ & H) F IH]; cbn [map fold_right]; [split; [inversion 1|contradiction]|].
      rewrite Exists_cons, IH, H. tauto. }
    destruct A as [E | [ts E]]; rewrite E in *; cbn [obind].
    + split; [left; reflexivity|]. tauto.
    + split; [right; eexists; reflexivity|]. split; [discriminate|]. intros D. apply C, B in D. discriminate.
  - set (f := fun p : string * expr K => do s <- repr show fp (snd p); Ret (fst p ++ ":" ++ s)).
    assert (U : forall p, ((repr show fp (snd p) = UB \/ exists s, repr show fp (snd p) = Ret s) /\ (repr show fp (snd p) = UB <-> dictionary_operand (snd p))) ->
              (f p = UB \/ exists a, f p = Ret a) /\ (f p = UB <-> dictionary_operand (snd p))).
    { intros p ([E | [s E]] & I); unfold f; rewrite E in *; cbn [obind].
      - split; [left; reflexivity|]. exact I.
      - split; [right; eexists; reflexivity|]. rewrite <- I. split; discriminate. }
    destruct (oseq_ub (map f d)) as (A & B).
    { apply Forall_map. eapply Forall_impl; [|exact IH]. intros p H. apply U, H. }
    assert (C : Exists (fun x => x = UB) (map f d) <-> fold_right (fun p P => dictionary_operand (snd p) \/ P) False d).
    { clear A B. induction IH as [|p l H F IH]; cbn [map fold_right]; [split; [inversion 1|contradiction]|].
      rewrite Exists_cons, IH, (proj2 (U p H)). tauto. }
    destruct A as [E | [ts E]]; rewrite E in *; cbn [obind].
    + split; [left; reflexivity|]. tauto.
    + split; [right; eexists; reflexivity|]. split; [discriminate|]. intros D. apply C, B in D. discriminate.
Qed.

(** ** Parsing *)
Definition entries (ds : list (cst * cst)) : list string := List.concat (map (fun p => (etok p ++ [","])%list) ds).
Definition next_key (s : pstate) : Prop := exists ds c s2,
  steps s (entries ds ++ tokens c)%list s2 /\ Forall (fun p => sentence (fst p) /\ sentence (snd p)) ds /\
  sentence c /\ dictionary_operand (denote c).
Definition bad_key (s : pstate) : Prop := exists pre s1, steps s (pre ++ ["{"])%list s1 /\ next_key s1.

Lemma bad_after s ts s1 : steps s ts s1 -> bad_key s1 -> bad_key s.
Proof.
  intros A (pre & s2 & B & C). exists (ts ++ pre)%list, s2. split; [|exact C].
  rewrite <- app_assoc. eapply steps_app; eauto.
Qed.
Lemma bind_ub {A B} (x : outcome A) (k : A -> outcome B) : obind x k = UB -> x = UB \/ exists a, x = Ret a /\ k a = UB.
Proof. destruct x; cbn; intros; try discriminate; eauto. Qed.
Lemma step_of s s1 t : cur s = t -> t <> "" -> adv s = Ret s1 -> steps s [t] s1.
Proof. intros <- N A. apply steps_one; auto. Qed.

Lemma ub_key n :
  (forall m s, (0 <= m)%Z -> vs s -> pexpr read show n m s = UB -> bad_key s) /\
  (forall s, vs s -> ptoken read show n s = UB -> bad_key s) /\
  (forall m M t s, (0 <= m)%Z -> ploop read show n m M t s = UB -> bad_key s) /\
  (forall acc s, vs s -> parr read show n acc s = UB -> bad_key s) /\
  (forall acc s, vs s -> pdict read show n acc s = UB -> bad_key s \/ next_key s).
Proof.
  induction n as [|n (IHe & IHt & IHl & IHa & IHd)]; [repeat split; intros; discriminate|].
  destruct (sound read show n) as (Se & St & _).
  assert (PE : forall m s p, (0 <= m)%Z -> vs s -> pexpr read show n m s = Ret p ->
             exists c, steps s (tokens c) (snd p) /\ denote c = fst p /\ sentence c).
  { intros m s [e s'] Hm V H. destruct (Se m s e s' Hm V H) as (c & b & A & B & C & _). exists c. auto. }
  repeat split.
  - intros m s Hm V H. cbn [ParserModel.pexpr] in H. apply bind_ub in H as [H | ([t s1] & T & H)]; [apply IHt; auto|].
    cbn [fst snd] in H. destruct (St s t s1 V T) as (c & A & _). eapply bad_after; [exact A|]. eapply IHl; eauto.
  - intros s V H. cbn [ParserModel.ptoken] in H. apply bind_ub in H as [H | (s1 & A & H)]; [exfalso; eapply adv_ub; eauto|].
    destruct (String.eqb_spec (cur s) "") as [|Ne]; [discriminate|]. destruct (starts_digit (cur s)); [discriminate|].
    pose proof (adv_vs _ _ A) as V1. pose proof (steps_one s s1 Ne A) as S1.
    destruct (left_op (cur s)) as [l|] eqn:El; [|destruct (all_alpha (cur s)); discriminate].
    destruct l as [| | | | |o].
    + eapply bad_after; [exact S1|]. eapply IHe; [|exact V1|exact H]. rewrite sign_bp_val; lia.
    + apply bind_ub in H as [H | (p & _ & H)]; [|discriminate]. eapply bad_after; [exact S1|]. eapply IHe; [|exact V1|exact H]. rewrite sign_bp_val; lia.
    + apply bind_ub in H as [H | (p & _ & H)]; [eapply bad_after; [exact S1|]; eapply IHe; [|exact V1|exact H]; lia|].
      apply bind_ub in H as [H | (s2 & _ & H)]; [exfalso; eapply expect_ub; eauto|discriminate].
    + destruct (String.eqb (cur s1) "]").
      * apply bind_ub in H as [H | (s2 & _ & H)]; [exfalso; eapply adv_ub; eauto|discriminate].
      * eapply bad_after; [exact S1|]. eapply IHa; eauto.
    + apply left_op_cases in El.
      assert (T : cur s = "{") by (destruct El as [[? _]|[[? _]|[[? _]|[[? _]|[[_ T]|(o & ? & _)]]]]]; congruence).
      destruct (String.eqb (cur s1) "}").
      * apply bind_ub in H as [H | (s2 & _ & H)]; [exfalso; eapply adv_ub; eauto|discriminate].
      * apply IHd in H as [H | H]; auto; [eapply bad_after; [exact S1|exact H]|].
        exists [], s1. split; [|exact H]. cbn [app]. rewrite <- T. exact S1.
    + apply bind_ub in H as [H | (p & _ & H)]; [|discriminate]. eapply bad_after; [exact S1|]. eapply IHe; [|exact V1|exact H]. rewrite imax_val; lia.
  - intros m M t s Hm H. cbn [ParserModel.ploop] in H.
    destruct (String.eqb_spec (cur s) "") as [|Ne]; [discriminate|]. destruct (right_op (cur s)) as [r|]; [|discriminate].
    destruct (_ || _)%bool; [discriminate|]. apply bind_ub in H as [H | (s1 & A & H)]; [exfalso; eapply adv_ub; eauto|].
    pose proof (adv_vs _ _ A) as V1. pose proof (steps_one s s1 Ne A) as S1.
    destruct r as [o|]; [|discriminate]. eapply bad_after; [exact S1|]. destruct (wrapped o) eqn:W.
    + apply bind_ub in H as [H | (p & P & H)]; [eapply IHe; [|exact V1|exact H]; lia|].
      destruct (PE 0%Z s1 p ltac:(lia) V1 P) as (c & B & _). eapply bad_after; [exact B|].
      apply bind_ub in H as [H | (s2 & X & H)]; [exfalso; eapply expect_ub; eauto|].
      apply expect_ret in X as (X1 & X2). eapply bad_after; [|eapply IHl; [exact Hm|exact H]].
      eapply (step_of _ _ (op_close o)); [exact X1|destruct o; discriminate|exact X2].
    + pose proof (rbp_pos o). apply bind_ub in H as [H | (p & P & H)]; [eapply IHe; [|exact V1|exact H]; lia|].
      destruct (PE (rbp o) s1 p ltac:(lia) V1 P) as (c & B & _). eapply bad_after; [exact B|].
      eapply IHl; [exact Hm|exact H].
  - intros acc s V H. cbn [ParserModel.parr] in H. apply bind_ub in H as [H | (p & P & H)]; [eapply IHe; [|exact V|exact H]; lia|].
    destruct (PE 0%Z s p ltac:(lia) V P) as (c & B & _). eapply bad_after; [exact B|].
    destruct (String.eqb (cur (snd p)) "]").
    + apply bind_ub in H as [H | (s2 & X & H)]; [exfalso; eapply expect_ub; eauto|discriminate].
    + apply bind_ub in H as [H | (s2 & X & H)]; [exfalso; eapply expect_ub; eauto|].
      pose proof (expect_vs _ _ _ X) as V2. apply expect_ret in X as (X1 & X2).
      eapply bad_after; [eapply (step_of _ _ ","); [exact X1|discriminate|exact X2]|]. eapply IHa; eauto.
  - intros acc s V H. cbn [ParserModel.pdict] in H. apply bind_ub in H as [H | (p & P & H)]; [left; eapply IHe; [|exact V|exact H]; lia|].
    destruct (PE 0%Z s p ltac:(lia) V P) as (c & B & D & Sc).
    assert (X : (do _m <- repr show false (fst p); (Throw : outcome (expr K * pstate))) = UB -> next_key s).
    { intros E. apply bind_ub in E as [E | (a & _ & E)]; [|discriminate]. apply repr_cases in E.
      exists [], c, (snd p). cbn. rewrite D. auto. }
    destruct (fst p) as [k|x|o a|o l r|es|d] eqn:Ep; try (right; apply X; exact H).
    apply bind_ub in H as [H | (s2 & Y & H)]; [exfalso; eapply expect_ub; eauto|].
    pose proof (expect_vs _ _ _ Y) as V2. apply expect_ret in Y as (Y1 & Y2).
    pose proof (step_of _ _ ":" Y1 ltac:(discriminate) Y2) as S2.
    apply bind_ub in H as [H | (q & Q & H)].
    { left. eapply bad_after; [exact B|]. eapply bad_after; [exact S2|]. eapply IHe; [|exact V2|exact H]. lia. }
    destruct (PE 0%Z s2 q ltac:(lia) V2 Q) as (v & B2 & D2 & Sv).
    destruct (String.eqb (cur (snd q)) "}").
    + apply bind_ub in H as [H | (s3 & Z & H)]; [exfalso; eapply expect_ub; eauto|discriminate].
    + apply bind_ub in H as [H | (s3 & Z & H)]; [exfalso; eapply expect_ub; eauto|].
      pose proof (expect_vs _ _ _ Z) as V3. apply expect_ret in Z as (Z1 & Z2).
      pose proof (step_of _ _ "," Z1 ltac:(discriminate) Z2) as S3.
      assert (ST : steps s (etok (c, v) ++ [","])%list s3).
      { unfold etok. cbn [fst snd]. rewrite <- app_assoc. eapply steps_app; [exact B|]. cbn [app].
        change (":" :: tokens v ++ [","])%list with ([":"] ++ tokens v ++ [","])%list.
        eapply steps_app; [exact S2|]. eapply steps_app; eauto. }
      apply IHd in H as [H | H]; auto; [left; eapply bad_after; [exact ST|exact H]|].
      right. destruct H as (ds & c' & s4 & E & F & Sc' & Do). exists ((c, v) :: ds), c', s4. split; [|repeat split; auto].
      unfold entries. cbn [map List.concat]. rewrite <- app_assoc. eapply steps_app; [exact ST|exact E].
Qed.

Lemma first_is_app P a b : first_is P a -> first_is P (a ++ b).
Proof. destruct a; cbn; auto; contradiction. Qed.
Lemma steps_prefix ts : forall s st s', consume s = Ret st -> steps st ts s' -> exists a b, s = a ++ b /\ layout a ts.
Proof.
  induction ts as [|t ts IH]; intros s st s' C St.
  - exists "", s. split; [reflexivity|]. apply (layout_nil 0).
  - apply steps_cons_inv in St as (E & Ne & s1 & A & St). destruct st as [t0 r]. unfold cur in E. cbn [fst] in E. subst t0.
    unfold adv in A. cbn [snd] in A. destruct (IH r s1 s' A St) as (a & b & -> & L).
    apply consume_sound in C as [(-> & _) | (N & T & [Mw Mn] & n & ->)]; [congruence|].
    exists (spaces n ++ t ++ a), b. split; [rewrite !sapp_assoc; reflexivity|].
    constructor; auto.
    + intros W F. apply (Mw W). apply first_is_app, F.
    + intros W F. apply (Mn W). apply first_is_app, F.
Qed.
End Generic.

(** ** Theorems *)
(** Undefined behaviour (an endless recursion while the error message is put
    together) happens only if the string begins with some tokens, an opening
    brace, any number of complete entries "key : value ,", and then a key in
    which a dictionary is an operand. *)
Theorem C35_undefined_only_keys : forall (K : Type) (EN : ENum K) (read : string -> K) show s,
  parse read show s = UB ->
  exists a b before entries c, s = a ++ b /\
    layout a (before ++ ["{"] ++ List.concat (map (fun p => tokens (fst p) ++ [":"] ++ tokens (snd p) ++ [","]) entries) ++ tokens c)%list /\
    Forall (fun p => sentence read (fst p) /\ sentence read (snd p)) entries /\
    sentence read c /\ dictionary_operand (denote read c).
Proof.
  intros K EN read show s H. unfold parse in H. apply bind_ub in H as [H | (p & _ & H)]; [|destruct (String.eqb _ _); discriminate].
  unfold parse_prefix in H. apply bind_ub in H as [H | (st & C & H)]; [apply consume_defined in H; contradiction|].
  destruct (proj1 (ub_key read show (parse_fuel s)) 0%Z st ltac:(lia) (consume_vs _ _ C) H) as (pre & s1 & A & ds & c & s2 & B & F & Sc & D).
  destruct (steps_prefix _ _ _ _ C (steps_app _ _ _ _ _ A B)) as (a & b & E & L).
  exists a, b, pre, ds, c. split; [exact E|]. split; [|auto].
  rewrite <- app_assoc in L. cbn [app] in L |- *. unfold entries in L.
  replace (map (fun p => tokens (fst p) ++ ":" :: tokens (snd p) ++ [","])%list ds) with (map (fun p => (etok p ++ [","])%list) ds); [exact L|].
  apply map_ext. intros p. unfold etok. rewrite <- app_assoc. reflexivity.
Qed.
Print Assumptions C35_undefined_only_keys.

(** How often a character occurs. *)
Fixpoint occurrences (c : ascii) (s : string) : nat :=
  match s with "" => 0 | String d t => (if Ascii.eqb c d then 1 else 0) + occurrences c t end.
Lemma occ_app c a b : occurrences c (a ++ b) = occurrences c a + occurrences c b.
Proof. induction a; cbn; [reflexivity|]. rewrite IHa. lia. Qed.
Lemma occ_layout s ts : layout s ts -> List.fold_right (fun t n => occurrences "{" t + n) 0 ts <= occurrences "{" s.
Proof. induction 1 as [n|n t rest ts T _ _ L IH]; cbn [fold_right]; [lia|]. rewrite !occ_app. lia. Qed.
Lemma occ_tokens l l' : List.fold_right (fun t n => occurrences "{" t + n) 0 (l ++ l')%list =
  List.fold_right (fun t n => occurrences "{" t + n) 0 l + List.fold_right (fun t n => occurrences "{" t + n) 0 l'.
Proof. induction l; cbn; [reflexivity|]. rewrite IHl. lia. Qed.
Lemma dict_brace {K} (read : string -> K) {EN : ENum K} c : is_dictionary (denote read c) \/ dictionary_operand (denote read c) ->
  1 <= List.fold_right (fun t n => occurrences "{" t + n) 0 (tokens c).
Proof.
  induction c using cst_ind'; cbn [tokens denote]; intros D; rewrite ?occ_tokens; cbn [fold_right]; rewrite ?occ_tokens; cbn [fold_right].
  - cbn in D. tauto.
  - cbn in D. tauto.
  - specialize (IHc D). lia.
  - specialize (IHc D). lia.
  - enough (1 <= fold_right (fun t n => occurrences "{" t + n) 0 (tokens c)) by lia. apply IHc.
    destruct (denote read c); cbn in D |- *; tauto.
  - enough (1 <= fold_right (fun t n => occurrences "{" t + n) 0 (tokens c)) by lia. apply IHc. cbn in D. tauto.
  - cbn in D. rewrite ?occ_tokens. cbn [fold_right]. rewrite ?occ_tokens.
    destruct D as [D | [D | [D | [D | D]]]]; try contradiction; try (specialize (IHc1 (or_introl D)); lia); try (specialize (IHc1 (or_intror D)); lia);
      try (specialize (IHc2 (or_introl D)); lia); specialize (IHc2 (or_intror D)); lia.
  - enough (1 <= fold_right (fun t n => occurrences "{" t + n) 0 (sep (map tokens es))) by lia.
    destruct D as [D | D]; [contradiction|]. cbn in D. induction H as [|c l P F IH]; cbn [map fold_right] in D; [contradiction|].
    assert (L : fold_right (fun t n => occurrences "{" t + n) 0 (tokens c) + fold_right (fun t n => occurrences "{" t + n) 0 (sep (map tokens l))
             <= fold_right (fun t n => occurrences "{" t + n) 0 (sep (map tokens (c :: l)))).
    { destruct l as [|c' l]; [cbn [map sep fold_right]; lia|].
      change (sep (map tokens (c :: c' :: l))) with (tokens c ++ "," :: sep (map tokens (c' :: l)))%list.
      rewrite occ_tokens. cbn [fold_right]. lia. }
    destruct D as [D | D]; [specialize (P (or_intror D)); lia|]. specialize (IH D). lia.
  - cbn. lia.
Qed.
(** A string with at most one opening brace is never undefined behaviour. *)
Theorem C35_one_brace_partial : forall (K : Type) (EN : ENum K) (read : string -> K) show s,
  occurrences "{" s <= 1 -> (exists e, parse read show s = Ret e) \/ parse read show s = Throw.
Proof.
  intros K EN read show s L. pose proof (C35_parser_terminates K EN read show s) as F.
  destruct (parse read show s) as [e| | |] eqn:E; eauto; [|congruence].
  exfalso. destruct (C35_undefined_only_keys K EN read show s E) as (a & b & before & es & c & -> & La & _ & _ & D).
  apply occ_layout in La. rewrite !occ_tokens in La. rewrite occ_app in L.
  pose proof (dict_brace read c (or_intror D)). cbn [fold_right] in La. change (occurrences "{" "{") with 1 in La. lia.
Qed.
Print Assumptions C35_one_brace_partial.
(** ** The constructor, which also simplifies *)
Section Nodes.
Context {K : Type} {EN : ENum K}.
Variable read : string -> K.
Variable p : expr K -> bool.
Variable c0 : ascii.
Hypothesis p_const : forall k, p (EConst k) = false.
Hypothesis p_var : forall x, p (EVar x) = false.
Hypothesis p_un : forall o a, p (EUn o a) = false.
Hypothesis p_dict : forall d, p (EDict d) = false.
Hypothesis p_bin : forall o l r, p (EBin o l r) = true -> ~ lacks c0 (op_tok o).
Hypothesis p_arr : forall es, p (EArr es) = true -> ~ lacks c0 "[".
Lemma assign_nodes d : forall acc, existsb (fun q => has_node p (snd q)) acc = false ->
  Forall (fun q => has_node p (snd q) = false) d -> existsb (fun q => has_node p (snd q)) (fold_left assign d acc) = false.
Proof.
  induction d as [|q d IH]; intros acc Ha Hd; [exact Ha|]. inversion Hd; subst. cbn [fold_left]. apply IH; auto.
  unfold assign. destruct (existsb (fun q0 => String.eqb (fst q) (fst q0)) acc).
  - rewrite <- not_true_iff_false. intros E. apply existsb_exists in E as (x & Hx & E). apply in_map_iff in Hx as (y & <- & Hy).
    destruct (String.eqb (fst q) (fst y)); [congruence|]. rewrite <- not_true_iff_false in Ha. apply Ha. apply existsb_exists. eauto.
  - rewrite existsb_app, Ha. cbn. now rewrite H1.
Qed.
Lemma no_node c : Forall (lacks c0) (tokens c) -> has_node p (denote read c) = false.
Proof.
  induction c using cst_ind'; cbn [tokens denote]; intros L.
  - cbn. now rewrite p_const.
  - cbn. now rewrite p_var.
  - apply Forall_inv_tail in L. apply Forall_app in L as [L _]. auto.
  - apply Forall_inv_tail in L. auto.
  - apply Forall_inv_tail in L. specialize (IHc L). destruct (denote read c); cbn [has_node] in *; rewrite ?p_const, ?p_un, ?p_var in *; auto.
  - apply Forall_inv_tail in L. cbn [has_node]. rewrite p_un. auto.
  - apply Forall_app in L as [L1 L]. pose proof (Forall_inv L) as Lo. apply Forall_inv_tail in L. apply Forall_app in L as [L2 _].
    cbn [has_node]. rewrite IHc1, IHc2 by auto. destruct (p (EBin o _ _)) eqn:E; [|reflexivity]. now apply p_bin in E.
  - pose proof (Forall_inv L) as Lo. apply Forall_inv_tail in L. apply Forall_app in L as [L _].
    cbn [has_node]. destruct (p (EArr _)) eqn:E; [now apply p_arr in E|]. cbn [orb]. clear E Lo.
    assert (F : Forall (fun c => Forall (lacks c0) (tokens c)) es).
    { clear H. induction es as [|x [|y t] IH]; [constructor|constructor; [exact L|constructor]|].
      change (sep (map tokens (x :: y :: t))) with (tokens x ++ "," :: sep (map tokens (y :: t)))%list in L.
      apply Forall_app in L as [L1 L]. constructor; [exact L1|]. apply IH. now apply Forall_inv_tail in L. }
    clear L. induction es as [|x t IH]; [reflexivity|]. inversion H; subst. inversion F; subst. cbn. rewrite H2 by auto. cbn. now apply IH.
  - apply Forall_inv_tail in L. apply Forall_app in L as [L _]. cbn [has_node]. rewrite p_dict. cbn [orb]. apply assign_nodes; [reflexivity|].
    assert (F : Forall (fun q => Forall (lacks c0) (tokens (snd q))) d).
    { clear H. induction d as [|x [|y t] IH]; [constructor| |].
      - constructor; [|constructor]. cbn [map sep] in L. apply Forall_app in L as [_ L]. now apply Forall_inv_tail in L.
      - match type of L with Forall _ (sep (map ?f (x :: y :: t))) => change (sep (map f (x :: y :: t))) with (f x ++ "," :: sep (map f (y :: t)))%list in L end.
        apply Forall_app in L as [L1 L]. constructor; [|apply IH; now apply Forall_inv_tail in L].
        cbn beta in L1. apply Forall_app in L1 as [_ L1]. now apply Forall_inv_tail in L1. }
    clear L. induction d as [|x t IH]; [constructor|]. inversion H; subst. inversion F; subst. cbn [map]. constructor; [cbn; tauto|auto].
Qed.
End Nodes.
Lemma array_power_parts {K} (e : expr K) : has_node array_power e = true -> has_node is_power e = true /\ has_node is_array e = true.
Proof.
  induction e as [c|y|o a IHa|o l r IHl IHr|es IH|d IH] using expr_ind'; cbn [has_node]; try discriminate.
  - cbn [array_power orb is_power is_array]. auto.
  - intros H. apply orb_prop in H as [H|H].
    + destruct o; try discriminate. cbn [array_power is_power is_array orb] in *. apply andb_prop in H as [-> H]. auto.
    + apply orb_prop in H as [H|H]; [destruct (IHl H) as [-> ->]|destruct (IHr H) as [-> ->]]; rewrite ?orb_true_r; auto.
  - cbn [array_power is_power is_array orb]. intros H. split; [|reflexivity].
    apply existsb_exists in H as (x & I & H). apply existsb_exists. exists x. split; auto. rewrite Forall_forall in IH. now apply IH.
  - cbn [array_power is_power is_array orb]. intros H. apply existsb_exists in H as (x & I & H). rewrite Forall_forall in IH. destruct (IH x I H).
    split; apply existsb_exists; eauto.
Qed.
(** Reading and simplifying together: a string with at most one opening brace and
    either no power sign or no bracket is turned into an expression or refused,
    with arrays, units, dictionaries and uncertainties allowed otherwise. *)
Theorem C35_constructor_ends_partial : forall (K : Type) (EN : ENum K) (read : string -> K) show s,
  occurrences "{" s <= 1 -> lacks "^" s \/ lacks "[" s ->
  exists result enough, (forall fuel, enough <= fuel -> expr_of_string read show fuel s = result) /\
    ((exists e', result = Ret e') \/ result = Throw).
Proof.
  intros K EN read show s L1 L2. pose proof (prefix_fuel read show s) as F.
  assert (U : parse_prefix read show s <> UB).
  { intros E. destruct (C35_one_brace_partial K EN read show s L1) as [[e P]|P]; unfold parse in P; rewrite E in P; discriminate. }
  unfold expr_of_string. destruct (parse_prefix read show s) as [[e s']| | |] eqn:E; try congruence; cbn [obind fst snd].
  2: { exists Throw, 0. auto. }
  destruct (prefix_sound read show s e s' E) as (st & c & b & C & St & D & _).
  assert (A : has_node array_power e = false).
  { destruct st as [t r].
    assert (Q : forall c0, lacks c0 s -> Forall (lacks c0) (tokens c)).
    { intros c0 L. destruct (consume_lacks c0 _ _ _ C L). eapply steps_lacks; eauto. }
    rewrite <- not_true_iff_false. intros H. apply array_power_parts in H as [Hp Ha]. rewrite <- D in Hp, Ha.
    destruct L2 as [L2|L2]; apply Q in L2.
    - rewrite (no_node read is_power "^") in Hp; auto; try discriminate.
      intros o l r0 Ho. destruct o; try discriminate. cbn. intros [N _]. now apply N.
    - rewrite (no_node read is_array "[") in Ha; auto; try discriminate. intros es _ [N _]. now apply N. }
  destruct (C53_terminates_partial K EN e A) as (res & n & H & R).
  exists (do e0 <- res; if String.eqb (cur s') "" then Ret e0 else Throw), n. split.
  - intros fuel Hf. now rewrite H.
  - destruct R as [[e' ->]| ->]; cbn; auto. destruct (String.eqb (cur s') ""); eauto.
Qed.
Print Assumptions C35_constructor_ends_partial.
Example C35_ex_constructor : occurrences "{" "[x, 2*[y]]*3{m} + a" = 1 /\ lacks "^" "[x, 2*[y]]*3{m} + a" /\
  expr_of_string (EN := Z_enum) digits_value decimal 9 "2*[x, 1+3]" = Ret (EArr [EBin BMul (EConst 2%Z) (EVar "x"); EBin BMul (EConst 2%Z) (EConst 4%Z)]).
Proof. split; [reflexivity|]. split; [repeat split; discriminate|reflexivity]. Qed.

(** Nested dictionaries among the values are harmless as well. *)
Example C35_ex_braces : occurrences "{" "{a:b, c:[x, 2*y]}" = 1 /\
  zparse "{a:{b:c}, d:{e:{f:2}}}" = Ret (EDict [("a", EDict [("b", EVar "c")]); ("d", EDict [("e", EDict [("f", EConst 2%Z)])])]) /\
  zparse "{{a:b}:c}" = Throw /\ zparse "{[{a:b}]:c}" = Throw /\ zparse "{[{a:b}, -{}]:c}" = UB.
Proof. repeat split. Qed.

(** Conversely, every well grouped key with a dictionary among its operands, put
    first into a dictionary, is undefined behaviour. *)
Theorem C35_dictionary_keys_refuted : forall (K : Type) (EN : ENum K) (read : string -> K) show s c rest,
  layout s ("{" :: tokens c ++ ":" :: rest)%list -> sentence read c -> grouped c -> postfix_ordered c ->
  dictionary_operand (denote read c) -> parse read show s = UB.
Proof.
  intros K EN read show s c rest L Se G P D.
  apply layout_lexed in L. destruct L as (st & s' & C & St & E).
  apply steps_cons_inv in St. destruct St as (E0 & Ne & s1 & A & St).
  apply steps_app_inv in St. destruct St as (s2 & St & St2). apply steps_cons_inv in St2. destruct St2 as (E2 & _).
  assert (G0 : good 0 c) by (apply good_of_grouped; auto; intros o _; pose proof (lbp_pos o); lia).
  assert (X : ev (fun n => pexpr read show n 0 st) UB).
  { apply ev_S. cbn [pexpr].
    assert (T : ev (fun n => ptoken read show n st) UB).
    { apply ev_S. eapply ev_ext; [intros n; symmetry; apply (ptoken_eq read show n st s1); [rewrite E0; exact Ne|exact A|rewrite E0; reflexivity]|].
      rewrite E0. cbn [left_op String.eqb Ascii.eqb Bool.eqb].
      destruct (first_token read c Se) as (t & ts & Et & _ & Nt).
      assert (N1 : cur s1 <> "}") by (rewrite Et in St; apply steps_cons_inv in St; destruct St as (-> & _); exact Nt).
      destruct (String.eqb_spec (cur s1) "}"); [congruence|].
      apply ev_S. cbn [pdict].
      eapply ev_bind; [apply (passes_halt read show c s1 s2); auto; [apply complete|rewrite E2; cbn; tauto]|].
      cbn [fst snd]. pose proof (proj2 (proj2 (repr_cases read show false (denote read c))) D) as R.
      destruct (denote read c); try contradiction; rewrite R; apply ev_const. }
    destruct T as (N & T). exists N. intros n Hn. rewrite T by exact Hn. reflexivity. }
  destruct X as (N & X). unfold parse, parse_prefix. rewrite C. cbn [obind].
  pose proof (pexpr_fuel read show s st C) as F.
  rewrite <- (pexpr_more read show (parse_fuel s) N 0 st F). rewrite X by lia. reflexivity.
Qed.
Print Assumptions C35_dictionary_keys_refuted.
Example C35_ex_key : layout "{-{}:x" ["{"; "-"; "{"; "}"; ":"; "x"] /\ grouped (CNeg (CDict [])) /\
  dictionary_operand (denote (EN := Z_enum) digits_value (CNeg (CDict []))) /\ zparse "{-{}:x" = UB.
Proof.
  split; [|split; [|split; [left; exact I|reflexivity]]].
  - apply lexed_layout. exists ("{", "-{}:x"), ("", ""). split; [reflexivity|]. split; [|reflexivity].
    do 6 (eapply steps_go; [discriminate|reflexivity|]). constructor.
  - cbn. repeat split; auto; contradiction.
Qed.
