(** C48: XML paths. *)
From Coq Require Import String Ascii List Arith Lia Decimal DecimalString DecimalNat Bool.
From Verif Require Import XmlModel.
Import ListNotations.
Open Scope string_scope.

(** ** Specification *)
Fixpoint occurs (c : ascii) (s : string) : Prop :=
  match s with EmptyString => False | String d r => d = c \/ occurs c r end.
(** No name contains '/' or '['. *)
Inductive plain_names : xtree -> Prop :=
| plain_node n cs : ~ occurs "/" n -> ~ occurs "[" n -> (forall c, In c cs -> plain_names c) -> plain_names (XNode n cs).
(** The path a reader expects: at each level the number of earlier siblings with
    the same name, omitted for the only node with its name. *)
Definition same_before (names : list string) (p : nat) : nat :=
  length (filter (String.eqb (nth p names "")) (firstn p names)).
Definition expected_index (names : list string) (p : nat) : option nat :=
  if (length (filter (String.eqb (nth p names "")) names) =? 1)%nat then None else Some (same_before names p).
Fixpoint expected_below (t : xtree) (pos : list nat) : option (list (string * option nat)) :=
  match pos with
  | [] => Some []
  | p :: rest =>
      match nth_error (xchildren t) p with
      | None => None
      | Some c => option_map (cons (xname c, expected_index (map xname (xchildren t)) p)) (expected_below c rest)
      end
  end.
Definition expected_path (t : xtree) (pos : list nat) : option string :=
  option_map (fun l => String.concat "" (map (fun e => segment (fst e) (snd e)) ((xname t, Some 0%nat) :: l))) (expected_below t pos).
(** At every level: an earlier sibling of another name comes after all earlier
    siblings of the node's own name. *)
Definition grouped_level (names : list string) (p : nat) : Prop :=
  forall i j, i < j < p -> nth j names "" = nth p names "" -> nth i names "" = nth p names "".
Fixpoint grouped (t : xtree) (pos : list nat) : Prop :=
  match pos with
  | [] => True
  | p :: rest => match nth_error (xchildren t) p with
                 | None => True
                 | Some c => grouped_level (map xname (xchildren t)) p /\ grouped c rest
                 end
  end.

(** ** Strings *)
Lemma app_assoc_s a b c : (a ++ b) ++ c = a ++ (b ++ c).
Proof. induction a; simpl; congruence. Qed.
Lemma app_nil_s a : a ++ "" = a.
Proof. induction a; simpl; congruence. Qed.
Lemma occurs_app c a b : occurs c (a ++ b) <-> occurs c a \/ occurs c b.
Proof. induction a; simpl; tauto. Qed.

(** A string without the character, followed by it, is determined. *)
Lemma split_at c a b r s : ~ occurs c a -> ~ occurs c b -> a ++ String c r = b ++ String c s -> a = b /\ r = s.
Proof.
  revert b. induction a as [|x a IH]; intros [|y b] Ha Hb H; simpl in *.
  - injection H as <-. auto.
  - injection H as <- _. tauto.
  - injection H as -> _. tauto.
  - injection H as <- H. apply IH in H as [-> ->]; tauto.
Qed.

Definition digit (c : ascii) : Prop := In c ["0"%char; "1"%char; "2"%char; "3"%char; "4"%char; "5"%char; "6"%char; "7"%char; "8"%char; "9"%char].
Lemma show_digits n c : occurs c (show_nat n) -> digit c.
Proof.
  unfold show_nat. generalize (Nat.to_uint n). intros u. induction u; simpl; intros H; try contradiction;
    (destruct H as [<-|H]; [unfold digit; simpl; tauto|auto]).
Qed.
Lemma show_inj n m : show_nat n = show_nat m -> n = m.
Proof.
  unfold show_nat. intros H. apply (f_equal NilEmpty.uint_of_string) in H. rewrite !NilEmpty.usu in H.
  injection H as H. now apply Unsigned.to_uint_inj.
Qed.
Lemma show_no c n : ~ digit c -> ~ occurs c (show_nat n).
Proof. intros H O. apply H. eapply show_digits; eauto. Qed.
Lemma nd_slash : ~ digit "/".
Proof. unfold digit. simpl. intuition discriminate. Qed.
Lemma nd_close : ~ digit "]".
Proof. unfold digit. simpl. intuition discriminate. Qed.

Definition tail_of (n : string) (i : option nat) : string :=
  n ++ match i with Some i => "[" ++ show_nat i ++ "]" | None => "" end.
Lemma segment_tail n i : segment n i = String "/" (tail_of n i).
Proof. reflexivity. Qed.
Lemma tail_no_slash n i : ~ occurs "/" n -> ~ occurs "/" (tail_of n i).
Proof.
  intros H. unfold tail_of. rewrite occurs_app. intros [|O]; [auto|]. destruct i as [i|]; [|auto].
  change ("[" ++ show_nat i ++ "]") with (String "[" (show_nat i ++ "]")) in O. destruct O as [E|O]; [discriminate|].
  apply occurs_app in O as [O|[E|[]]]; [|discriminate]. revert O. apply show_no, nd_slash.
Qed.
Lemma tail_inj n i m j : ~ occurs "[" n -> ~ occurs "[" m -> tail_of n i = tail_of m j -> n = m /\ i = j.
Proof.
  intros Hn Hm H. unfold tail_of in H. destruct i as [i|], j as [j|].
  - apply (split_at "[" n m) in H as [-> H]; auto. split; auto. f_equal.
    apply (split_at "]") in H as [H _]; try (apply show_no, nd_close). now apply show_inj.
  - exfalso. rewrite app_nil_s in H. apply Hm. rewrite <- H, occurs_app. right. left. reflexivity.
  - exfalso. rewrite app_nil_s in H. apply Hn. rewrite H, occurs_app. right. left. reflexivity.
  - rewrite !app_nil_s in H. auto.
Qed.

Definition entry_ok (e : string * option nat) : Prop := ~ occurs "/" (fst e) /\ ~ occurs "[" (fst e).
Definition render (l : list (string * option nat)) : string := String.concat "" (map (fun e => segment (fst e) (snd e)) l).
Lemma render_cons e l : render (e :: l) = String "/" (tail_of (fst e) (snd e) ++ render l).
Proof.
  destruct l as [|e' l]; [change (render []) with ""; rewrite app_nil_s; reflexivity|reflexivity].
Qed.
Lemma render_inj l1 : forall l2, Forall entry_ok l1 -> Forall entry_ok l2 -> render l1 = render l2 -> l1 = l2.
Proof.
  induction l1 as [|e1 l1 IH]; intros [|e2 l2] F1 F2 H; auto.
  - rewrite render_cons in H. discriminate.
  - rewrite render_cons in H. discriminate.
  - rewrite !render_cons in H. injection H as H. inversion F1 as [|? ? [A1 B1] F1']; inversion F2 as [|? ? [A2 B2] F2']; subst.
    assert (X : tail_of (fst e1) (snd e1) = tail_of (fst e2) (snd e2) /\ render l1 = render l2).
    { assert (N1 := tail_no_slash _ (snd e1) A1). assert (N2 := tail_no_slash _ (snd e2) A2).
      destruct l1 as [|a l1], l2 as [|b l2].
      - change (render []) with "" in *. rewrite !app_nil_s in H. auto.
      - change (render []) with "" in H. rewrite app_nil_s, render_cons in H. exfalso. apply N1. rewrite H, occurs_app. right. left. auto.
      - change (render []) with "" in H. rewrite app_nil_s, render_cons in H. exfalso. apply N2. rewrite <- H, occurs_app. right. left. auto.
      - rewrite !(render_cons a), !(render_cons b) in *. apply split_at in H as [H1 H2]; auto. split; congruence. }
    destruct X as [X Y]. apply tail_inj in X as [X Z]; auto. f_equal; [|now apply IH].
    destruct e1, e2; simpl in *; congruence.
Qed.

(** ** Indices *)
Lemma steps_back_S q : steps_back q = S q.
Proof. induction q; simpl; auto. Qed.
Lemma previous_spec names p n : match previous_named names p n with
  | Some q => q < p /\ nth q names "" = n /\ (forall i, q < i < p -> nth i names "" <> n)
  | None => forall i, i < p -> nth i names "" <> n end.
Proof.
  induction p as [|p IH]; simpl; [lia|]. destruct (String.eqb_spec (nth p names "") n) as [E|E].
  - repeat split; auto; lia.
  - destruct (previous_named names p n) as [q|].
    + destruct IH as (A & B & C). repeat split; auto. intros i Hi. destruct (Nat.eq_dec i p); [subst; auto|]. apply C. lia.
    + intros i Hi. destruct (Nat.eq_dec i p); [subst; auto|]. apply IH. lia.
Qed.
Lemma next_spec names p n : next_named names p n = true <-> exists i, p < i < length names /\ nth i names "" = n.
Proof.
  unfold next_named. rewrite existsb_exists. split.
  - intros (x & Hx & E). apply String.eqb_eq in E. subst x. apply (In_nth _ _ "") in Hx as (k & Hk & E).
    rewrite skipn_length in Hk. exists (S p + k). split; [lia|]. rewrite <- E.
    rewrite <- (firstn_skipn (S p) names) at 1. rewrite app_nth2; rewrite firstn_length; [|lia]. f_equal. lia.
  - intros (i & Hi & E). exists n. split; [|apply String.eqb_refl]. rewrite <- E.
    rewrite <- (firstn_skipn (S p) names) at 1. rewrite app_nth2; rewrite firstn_length; [|lia]. apply nth_In. rewrite skipn_length. lia.
Qed.
(** Different siblings of the same name get different indices. *)
Lemma level_distinct names p1 p2 : p1 < p2 -> p2 < length names -> nth p1 names "" = nth p2 names "" ->
  level_index names p1 <> level_index names p2.
Proof.
  intros L B E. unfold level_index. rewrite <- E. set (n := nth p1 names "") in *.
  pose proof (previous_spec names p1 n) as P1. pose proof (previous_spec names p2 n) as P2.
  assert (Nx : next_named names p1 n = true) by (apply next_spec; exists p2; split; [lia|auto]).
  destruct (previous_named names p2 n) as [q2|]; [|exfalso; apply (P2 p1 L); reflexivity].
  destruct P2 as (A2 & B2 & C2). assert (p1 <= q2) by (destruct (le_lt_dec p1 q2); auto; exfalso; apply (C2 p1); [lia|reflexivity]).
  rewrite Nx, !steps_back_S. cbn [negb andb]. rewrite andb_false_r. cbn [Nat.eqb andb].
  destruct (previous_named names p1 n) as [q1|]; [|discriminate]. rewrite steps_back_S. destruct P1 as (A1 & _ & _). intros H'. injection H' as H'. lia.
Qed.

Lemma below_entries t : forall pos l, plain_names t -> below t pos = Some l -> Forall entry_ok l.
Proof.
  intros pos. revert t. induction pos as [|p pos IH]; intros [n cs] l P H; simpl in H.
  - injection H as <-. constructor.
  - destruct (nth_error cs p) as [c|] eqn:E; [|discriminate]. inversion P as [? ? A B C]; subst.
    destruct (below c pos) as [l'|] eqn:E'; [|discriminate]. injection H as <-.
    assert (Pc : plain_names c) by (apply C; eapply nth_error_In; eauto).
    constructor; [|eapply IH; eauto]. inversion Pc; subst. split; auto.
Qed.
Lemma below_inj t : forall p1 p2 l, below t p1 = Some l -> below t p2 = Some l -> p1 = p2.
Proof.
  intros p1. revert t. induction p1 as [|a p1 IH]; intros [n cs] [|b p2] l H1 H2; simpl in *; auto.
  - injection H1 as <-. destruct (nth_error cs b); [|discriminate]. destruct (below _ p2); discriminate.
  - injection H2 as <-. destruct (nth_error cs a); [|discriminate]. destruct (below _ p1); discriminate.
  - destruct (nth_error cs a) as [ca|] eqn:Ea; [|discriminate]. destruct (nth_error cs b) as [cb|] eqn:Eb; [|discriminate].
    destruct (below ca p1) as [la|] eqn:La; [|discriminate]. destruct (below cb p2) as [lb|] eqn:Lb; [|discriminate].
    cbn [option_map] in H1, H2. rewrite <- H1 in H2. clear H1. injection H2 as Hn Hi Hl. subst lb.
    assert (N : forall k c, nth_error cs k = Some c -> nth k (map xname cs) "" = xname c /\ k < length (map xname cs)).
    { intros k c Hk. assert (k < length cs) by (apply nth_error_Some; congruence). rewrite map_length. split; auto.
      apply nth_error_nth. rewrite nth_error_map, Hk. reflexivity. }
    destruct (N _ _ Ea) as [Na Ba], (N _ _ Eb) as [Nb Bb].
    assert (a = b).
    { destruct (lt_eq_lt_dec a b) as [[L|]|L]; auto; exfalso.
      - eapply (level_distinct (map xname cs) a b); auto. congruence.
      - eapply (level_distinct (map xname cs) b a); auto. congruence. }
    subst b. rewrite Ea in Eb. injection Eb as <-. f_equal. eapply IH; eauto.
Qed.

(** *** Different nodes have different paths *)
Theorem C48_paths_distinct : forall t pos1 pos2 s, plain_names t ->
  get_path t pos1 = Some s -> get_path t pos2 = Some s -> pos1 = pos2.
Proof.
  intros t p1 p2 s P H1 H2. unfold get_path in *.
  destruct (below t p1) as [l1|] eqn:E1; [|discriminate]. destruct (below t p2) as [l2|] eqn:E2; [|discriminate].
  cbn [option_map] in *. rewrite <- H1 in H2. injection H2 as H. clear H1.
  assert (O : entry_ok (xname t, Some 0)) by (inversion P; subst; split; auto).
  assert (X : (xname t, Some 0) :: l2 = (xname t, Some 0) :: l1).
  { apply render_inj; try (constructor; [exact O|]; eapply below_entries; eauto). exact H. }
  injection X as X. subst l2. eapply below_inj; eauto.
Qed.
Print Assumptions C48_paths_distinct.

Definition sample : xtree := XNode "" [XNode "r" [XNode "b" []; XNode "a" []; XNode "a" [XNode "" []]]].
Example C48_ex : plain_names sample /\ get_path sample [0; 1] = Some "/[0]/r/a[0]" /\ get_path sample [0; 0] = Some "/[0]/r/b".
Proof.
  split; [|split; reflexivity]. unfold sample.
  repeat (constructor; [simpl; intuition discriminate|simpl; intuition discriminate|]; simpl; intros c H;
    repeat match goal with H : _ \/ _ |- _ => destruct H as [<-|H] | H : False |- _ => destruct H end); try contradiction.
Qed.

(** *** The index *)
Lemma filter_all {A} (f : A -> bool) l : (forall x, In x l -> f x = true) -> filter f l = l.
Proof. induction l; simpl; intros H; auto. rewrite H by auto. f_equal. auto. Qed.
Lemma filter_none {A} (f : A -> bool) l : (forall x, In x l -> f x = false) -> filter f l = [].
Proof. induction l; simpl; intros H; auto. rewrite H by auto. auto. Qed.
Lemma in_firstn_nth (l : list string) p x : In x (firstn p l) -> exists i, i < p /\ i < length l /\ nth i l "" = x.
Proof.
  intros H. apply (In_nth _ _ "") in H as (i & Hi & E). rewrite firstn_length in Hi. exists i. repeat split; try lia.
  rewrite <- E. rewrite <- (firstn_skipn p l) at 1. rewrite app_nth1; auto. rewrite firstn_length. lia.
Qed.
Lemma split_nth (names : list string) p : p < length names -> names = (firstn p names ++ [nth p names ""] ++ skipn (S p) names)%list.
Proof.
  revert p. induction names as [|a l IH]; intros p B; simpl in B; [lia|].
  destruct p; [reflexivity|]. simpl. f_equal. apply IH. lia.
Qed.

Lemma level_expected names p : p < length names -> grouped_level names p -> level_index names p = expected_index names p.
Proof.
  intros B G. unfold level_index, expected_index. pose proof (split_nth names p B) as Sp. set (n := nth p names "") in *.
  assert (Cnt : length (filter (String.eqb n) names) = same_before names p + 1 + length (filter (String.eqb n) (skipn (S p) names))).
  { rewrite Sp at 1. rewrite !filter_app, !app_length. cbn [filter]. rewrite String.eqb_refl. unfold same_before. fold n. cbn [length]. lia. }
  rewrite Cnt.
  assert (Nx : next_named names p n = false <-> length (filter (String.eqb n) (skipn (S p) names)) = 0).
  { unfold next_named. rewrite <- not_true_iff_false, existsb_exists. split.
    - intros H. destruct (filter (String.eqb n) (skipn (S p) names)) as [|x r] eqn:F; auto. exfalso. apply H. exists x.
      assert (I0 : In x (x :: r)) by (left; auto). rewrite <- F in I0. apply filter_In in I0. tauto.
    - intros H (x & Hx & E). assert (In x (filter (String.eqb n) (skipn (S p) names))) by (apply filter_In; auto).
      destruct (filter (String.eqb n) (skipn (S p) names)); [contradiction|discriminate]. }
  pose proof (previous_spec names p n) as P. assert (Sb : same_before names p = length (filter (String.eqb n) (firstn p names))) by reflexivity. rewrite Sb in *. clear Sb.
  assert (Idx : match previous_named names p n with Some q => steps_back q | None => 0 end = length (filter (String.eqb n) (firstn p names))).
  { destruct (previous_named names p n) as [q|].
    - destruct P as (A1 & A2 & A3). rewrite steps_back_S.
      assert (F1 : firstn p names = (firstn (S q) names ++ firstn (p - S q) (skipn (S q) names))%list).
      { rewrite <- (firstn_skipn (S q) names) at 1. rewrite firstn_app, firstn_length, firstn_firstn.
        f_equal; f_equal; lia. }
      assert (FA : filter (String.eqb n) (firstn (S q) names) = firstn (S q) names).
      { apply filter_all. intros x Hx. apply in_firstn_nth in Hx as (i & Hi & Hl & <-). apply String.eqb_eq. symmetry.
        destruct (Nat.eq_dec i q) as [->|]; auto. apply (G i q); [lia|auto]. }
      assert (FB : filter (String.eqb n) (firstn (p - S q) (skipn (S q) names)) = []).
      { apply filter_none. intros x Hx. apply String.eqb_neq. intros E0. apply (In_nth _ _ "") in Hx as (k & Hk & E).
        rewrite firstn_length, skipn_length in Hk. apply (A3 (S q + k)); [lia|]. rewrite E0, <- E.
        rewrite <- (firstn_skipn (S q) names) at 1. rewrite app_nth2; rewrite firstn_length; [|lia].
        replace (S q + k - Nat.min (S q) (length names)) with k by lia.
        rewrite <- (firstn_skipn (p - S q) (skipn (S q) names)) at 1. rewrite app_nth1; auto. rewrite firstn_length, skipn_length. lia. }
      rewrite F1, filter_app, app_length, FA, FB, firstn_length. cbn [length]. lia.
    - rewrite filter_none; auto. intros x Hx. apply in_firstn_nth in Hx as (i & Hi & Hl & <-). apply String.eqb_neq. intros E. apply (P i); auto. }
  rewrite Idx. set (k := length (filter (String.eqb n) (firstn p names))) in *.
  destruct (next_named names p n) eqn:En.
  - cbn [negb]. rewrite andb_false_r. destruct (Nat.eqb_spec (k + 1 + length (filter (String.eqb n) (skipn (S p) names))) 1); auto.
    assert (length (filter (String.eqb n) (skipn (S p) names)) = 0) by lia. apply Nx in H. discriminate.
  - assert (Z := proj1 Nx eq_refl). rewrite Z. cbn [negb]. rewrite andb_true_r.
    destruct (Nat.eqb_spec k 0), (Nat.eqb_spec (k + 1 + 0) 1); auto; lia.
Qed.

(** The reported path is the expected one when, at every level, no sibling of
    another name precedes two of the node's name.  (Partial: otherwise the index
    is wrong.) *)
Theorem C48_index_partial : forall t pos, grouped t pos -> get_path t pos = expected_path t pos.
Proof.
  intros t pos G. unfold get_path, expected_path. f_equal. revert t G. induction pos as [|p pos IH]; intros [n cs] G; auto.
  cbn [below expected_below grouped xchildren] in *. destruct (nth_error cs p) as [c|] eqn:E; auto. destruct G as [G1 G2].
  rewrite IH by auto. rewrite level_expected; auto. rewrite map_length. apply nth_error_Some. congruence.
Qed.
Print Assumptions C48_index_partial.
Example C48_ex_grouped : grouped (XNode "" [XNode "r" [XNode "a" []; XNode "a" []; XNode "b" []]]) [0; 1].
Proof. simpl. repeat split; intros i j H; lia. Qed.
(** <r><b/><a/><a/></r>: the second a has index 1 but is reported as a[2]. *)
Theorem C48_index_refuted : get_path sample [0; 2] = Some "/[0]/r/a[2]" /\ expected_path sample [0; 2] = Some "/[0]/r/a[1]".
Proof. split; reflexivity. Qed.
Print Assumptions C48_index_refuted.
Lemma filter_full {A} (f : A -> bool) l : length (filter f l) = length l -> forall x, In x l -> f x = true.
Proof.
  assert (B : forall l, length (filter f l) <= length l) by (induction l0 as [|a l0 IH]; simpl; [lia|destruct (f a); simpl; lia]).
  induction l as [|a l IH]; simpl; intros E x Hx; [contradiction|]. specialize (B l).
  destruct (f a) eqn:F; [|lia]. simpl in E. destruct Hx as [<-|Hx]; auto.
Qed.
Lemma level_unexpected names p : p < length names -> level_index names p = expected_index names p -> grouped_level names p.
Proof.
  intros B H i j Hij Ej. set (n := nth p names "") in *.
  pose proof (previous_spec names p n) as P. unfold level_index, expected_index in H. fold n in H.
  destruct (previous_named names p n) as [q|]; [|destruct (P j); [lia|exact Ej]].
  destruct P as (A1 & A2 & A3). rewrite steps_back_S in H. cbn [Nat.eqb andb] in H.
  destruct (Nat.eqb (length (filter (String.eqb n) names)) 1); [discriminate H|]. injection H as H. unfold same_before in H. fold n in H.
  assert (Jq : j <= q). { destruct (le_lt_dec j q); auto. exfalso. apply (A3 j); [lia|exact Ej]. }
  assert (F1 : firstn p names = (firstn (S q) names ++ firstn (p - S q) (skipn (S q) names))%list).
  { rewrite <- (firstn_skipn (S q) names) at 1. rewrite firstn_app, firstn_length, firstn_firstn. f_equal; f_equal; lia. }
  assert (FB : filter (String.eqb n) (firstn (p - S q) (skipn (S q) names)) = []).
  { apply filter_none. intros x Hx. apply String.eqb_neq. intros E0. apply (In_nth _ _ "") in Hx as (k & Hk & E).
    rewrite firstn_length, skipn_length in Hk. apply (A3 (S q + k)); [lia|]. rewrite E0, <- E.
    rewrite <- (firstn_skipn (S q) names) at 1. rewrite app_nth2; rewrite firstn_length; [|lia].
    replace (S q + k - Nat.min (S q) (length names)) with k by lia.
    rewrite <- (firstn_skipn (p - S q) (skipn (S q) names)) at 1. rewrite app_nth1; auto. rewrite firstn_length, skipn_length. lia. }
  rewrite F1, filter_app, FB, app_nil_r in H.
  assert (LF : length (firstn (S q) names) = S q) by (rewrite firstn_length; lia).
  assert (X : String.eqb n (nth i names "") = true).
  { apply (filter_full (String.eqb n) (firstn (S q) names)); [rewrite LF; symmetry; exact H|].
    rewrite <- (firstn_skipn (S q) names) at 1. rewrite app_nth1 by (rewrite LF; lia). apply nth_In. rewrite LF. lia. }
  apply String.eqb_eq in X. symmetry. exact X.
Qed.
Lemma expected_entries t : forall pos l, plain_names t -> expected_below t pos = Some l -> Forall entry_ok l.
Proof.
  intros pos. revert t. induction pos as [|p pos IH]; intros [n cs] l P H; simpl in H.
  - injection H as <-. constructor.
  - destruct (nth_error cs p) as [c|] eqn:E; [|discriminate]. inversion P as [? ? A B C]; subst.
    destruct (expected_below c pos) as [l'|] eqn:E'; [|discriminate]. injection H as <-.
    assert (Pc : plain_names c) by (apply C; eapply nth_error_In; eauto).
    constructor; [|eapply IH; eauto]. inversion Pc; subst. split; auto.
Qed.
(** The path is the expected one exactly when at every level the equally named
    earlier siblings come first. *)
Theorem C48_index_iff : forall t pos p, plain_names t -> get_path t pos = Some p ->
  (expected_path t pos = Some p <-> grouped t pos).
Proof.
  intros t pos p PN G. split; [|intros H; rewrite <- C48_index_partial by exact H; exact G].
  unfold get_path, expected_path in *. change (String.concat "" (map ?f ?l)) with (render l) in *.
  destruct (below t pos) as [l|] eqn:L; [|discriminate]. destruct (expected_below t pos) as [l'|] eqn:L'; [|discriminate].
  cbn [option_map] in *. injection G as G. intros H. injection H as H. rewrite <- G in H.
  assert (EO : entry_ok (xname t, Some 0)) by (inversion PN; split; assumption).
  assert (E : l = l').
  { apply render_inj in H; [injection H as H; auto| |]; constructor; auto; [eapply expected_entries|eapply below_entries]; eauto. }
  subst l'. clear - L L'. revert t l L L'. induction pos as [|q pos IH]; intros [n cs] l L L'; cbn [grouped]; auto.
  cbn [below expected_below xchildren] in *. destruct (nth_error cs q) as [c|] eqn:E; [|exact I].
  destruct (below c pos) as [m|] eqn:M; [|discriminate]. destruct (expected_below c pos) as [m'|] eqn:M'; [|discriminate].
  cbn [option_map] in *. injection L as <-. injection L' as E1 E2. subst m'. split; [|eapply IH; eauto].
  apply level_unexpected; [rewrite map_length; apply nth_error_Some; congruence|symmetry; exact E1].
Qed.
Print Assumptions C48_index_iff.
