(** C28, C29: strip and search_replace. *)
From Coq Require Import List Arith Lia Bool.
From Verif Require Import Outcome StringModel.
Import ListNotations.
Open Scope nat_scope.

(* ---------------------------------------------------------- specification *)
(** [out] is [s] without its blank ends *)
Definition stripped {A} (blank : A -> Prop) (s out : list A) : Prop :=
  exists a b, s = a ++ out ++ b /\ Forall blank a /\ Forall blank b /\
    (forall x t, out = x :: t -> ~ blank x) /\ (forall x t, out = t ++ [x] -> ~ blank x).

(** [p] is what precedes the first occurrence of [from] in [s], [rest] what follows *)
Definition first_occurrence {A} (from s p rest : list A) : Prop :=
  s = p ++ from ++ rest /\ forall q r, s = q ++ from ++ r -> length p <= length q.
(** left-most, non-overlapping replacement *)
Inductive replaced {A} (from to : list A) : list A -> list A -> nat -> Prop :=
| rep_none s : (forall q r, s <> q ++ from ++ r) -> replaced from to s s 0
| rep_some s p rest out n : first_occurrence from s p rest -> replaced from to rest out n ->
    replaced from to s (p ++ to ++ out) (S n).

Section proofs.
Context {A : Type} (eqb : A -> A -> bool) (eqb_ok : forall x y, eqb x y = true <-> x = y).

Lemma memb_In x l : memb eqb x l = true <-> In x l.
Proof.
  induction l as [|y t IH]; cbn [memb In]; [split; [discriminate|tauto]|].
  rewrite orb_true_iff, IH, eqb_ok. split; intros [H|H]; auto.
Qed.
Lemma memb_false x l : memb eqb x l = false <-> ~ In x l.
Proof. rewrite <- memb_In. destruct (memb eqb x l); split; congruence. Qed.

Lemma first_not_of s ws : match find_first_not_of eqb s ws with
  | None => Forall (fun c => In c ws) s
  | Some i => exists a x t, s = a ++ x :: t /\ length a = i /\ Forall (fun c => In c ws) a /\ ~ In x ws
  end.
Proof.
  induction s as [|c s IH]; cbn [find_first_not_of]; [constructor|].
  destruct (memb eqb c ws) eqn:E.
  - apply memb_In in E. destruct (find_first_not_of eqb s ws) as [i|]; cbn [option_map].
    + destruct IH as (a & x & t & -> & <- & HF & Hx). exists (c :: a), x, t. repeat split; auto.
    + constructor; auto.
  - apply memb_false in E. exists [], c, s. repeat split; auto.
Qed.
Lemma last_not_of s ws : match find_last_not_of eqb s ws with
  | None => Forall (fun c => In c ws) s
  | Some i => exists a x t, s = a ++ x :: t /\ length a = i /\ Forall (fun c => In c ws) t /\ ~ In x ws
  end.
Proof.
  induction s as [|c s IH]; cbn [find_last_not_of]; [constructor|].
  destruct (find_last_not_of eqb s ws) as [i|].
  - destruct IH as (a & x & t & -> & <- & HF & Hx). exists (c :: a), x, t. repeat split; auto.
  - destruct (memb eqb c ws) eqn:E.
    + constructor; [apply memb_In, E|exact IH].
    + apply memb_false in E. exists [], c, s. repeat split; auto.
Qed.

Lemma skipn_len (a b : list A) : skipn (length a) (a ++ b) = b.
Proof. rewrite skipn_app, skipn_all, Nat.sub_diag. reflexivity. Qed.
Lemma firstn_len (a b : list A) : firstn (length a) (a ++ b) = a.
Proof. rewrite firstn_app, firstn_all, Nat.sub_diag. cbn [firstn]. apply app_nil_r. Qed.

Lemma strip_correct s ws : stripped (fun c => In c ws) s (strip eqb s ws).
Proof.
  unfold strip. pose proof (first_not_of s ws) as F. destruct (find_first_not_of eqb s ws) as [i|].
  - pose proof (last_not_of s ws) as L. destruct (find_last_not_of eqb s ws) as [j|].
    + destruct F as (a & x & t & Es & <- & Fa & Hx). destruct L as (a' & x' & t' & Es' & <- & Ft' & Hx').
      assert (P : exists m, a' = a ++ m).
      { rewrite Es in Es'. apply app_eq_app in Es'. destruct Es' as (m & [[E1 E2]|[E1 E2]]); [|exists m; exact E1].
        destruct m as [|y m]; [exists []; rewrite app_nil_r in *; congruence|].
        injection E2 as -> _. exfalso. rewrite Forall_forall in Fa. apply Hx', Fa. rewrite E1. apply in_or_app. right. left. reflexivity. }
      destruct P as [m ->]. assert (Ho : substr s (length a) (length (a ++ m) - length a + 1) = m ++ [x']).
      { unfold substr. rewrite Es', <- app_assoc, skipn_len, app_length.
        replace (length a + length m - length a + 1) with (length (m ++ [x'])) by (rewrite app_length; simpl; lia).
        replace (m ++ x' :: t') with ((m ++ [x']) ++ t') by (rewrite <- app_assoc; reflexivity). apply firstn_len. }
      rewrite Ho. exists a, t'. split; [rewrite Es', <- !app_assoc; reflexivity|]. split; [exact Fa|]. split; [exact Ft'|].
      split.
      * intros y u E. rewrite Es in Es'. rewrite <- app_assoc in Es'. apply app_inv_head in Es'.
        replace (m ++ x' :: t') with ((m ++ [x']) ++ t') in Es' by (rewrite <- app_assoc; reflexivity). rewrite E in Es'. injection Es' as <- _. exact Hx.
      * intros y u E. apply app_inj_tail in E. destruct E as [_ <-]. exact Hx'.
    + destruct F as (a & x & t & Es & _ & _ & Hx). exfalso. apply Hx. rewrite Forall_forall in L. apply L. rewrite Es. apply in_or_app. right. left. reflexivity.
  - exists s, []. split; [rewrite app_nil_r; reflexivity|]. split; [exact F|]. split; [constructor|].
    split; [intros x t E; discriminate|intros x t E; destruct t; discriminate].
Qed.

Lemma starts_with_ok pat : forall s, starts_with eqb pat s = true <-> exists r, s = pat ++ r.
Proof.
  induction pat as [|p pt IH]; intros s; cbn [starts_with].
  - split; [intros _; exists s; reflexivity|reflexivity].
  - destruct s as [|c st]; [split; [discriminate|intros [r E]; discriminate]|].
    rewrite andb_true_iff, eqb_ok, IH. split.
    + intros [<- [r ->]]. exists r. reflexivity.
    + intros [r E]. injection E as -> ->. split; [reflexivity|exists r; reflexivity].
Qed.
Lemma find_ok pat s : match find eqb s pat with
  | Some i => exists p r, first_occurrence pat s p r /\ length p = i
  | None => forall q r, s <> q ++ pat ++ r
  end.
Proof.
  induction s as [|c s IH]; cbn [find].
  - destruct (starts_with eqb pat []) eqn:E.
    + apply starts_with_ok in E. destruct E as [r E]. exists [], r. split; [split; [exact E|intros; simpl; lia]|reflexivity].
    + intros q r H. destruct q; [|discriminate]. assert (starts_with eqb pat [] = true) by (apply starts_with_ok; exists r; exact H). congruence.
  - destruct (starts_with eqb pat (c :: s)) eqn:E.
    + apply starts_with_ok in E. destruct E as [r E]. exists [], r. split; [split; [exact E|intros; simpl; lia]|reflexivity].
    + assert (N : forall q r, c :: s = q ++ pat ++ r -> exists q', q = c :: q' /\ s = q' ++ pat ++ r).
      { intros [|d q'] r H; [exfalso; assert (starts_with eqb pat (c :: s) = true) by (apply starts_with_ok; exists r; exact H); congruence|].
        injection H as -> H. exists q'. auto. }
      destruct (find eqb s pat) as [i|]; cbn [option_map].
      * destruct IH as (p & r & [Hs Hm] & <-). exists (c :: p), r. split; [split; [rewrite Hs; reflexivity|]|reflexivity].
        intros q r' H. destruct (N q r' H) as (q' & -> & H'). specialize (Hm q' r' H'). simpl; lia.
      * intros q r H. destruct (N q r H) as (q' & -> & H'). exact (IH q' r H').
Qed.

Lemma replaced_fun (from to s out out' : list A) n n' : from <> [] -> replaced from to s out n -> replaced from to s out' n' -> out = out' /\ n = n'.
Proof.
  intros Hf H. revert out' n'. induction H as [s HN|s p rest out n [Hs Hm] HR IH]; intros out' n' H'; inversion H' as [s' HN'|s' p' rest' o' m' [Hs' Hm'] HR']; subst.
  - auto.
  - exfalso. eapply HN. reflexivity.
  - exfalso. eapply HN'. reflexivity.
  - assert (length p = length p') by (pose proof (Hm _ _ Hs'); pose proof (Hm' _ _ eq_refl); lia).
    apply app_eq_app in Hs'. destruct Hs' as (l & [[E1 E2]|[E1 E2]]).
    + assert (l = []) by (apply length_zero_iff_nil; subst p; rewrite app_length in H; lia). subst l. rewrite app_nil_r in E1. subst p'. cbn [app] in E2.
      apply app_inv_head in E2. subst rest'. destruct (IH _ _ HR') as [-> ->]. auto.
    + assert (l = []) by (apply length_zero_iff_nil; subst p'; rewrite app_length in H; lia). subst l. rewrite app_nil_r in E1. subst p'. cbn [app] in E2.
      apply app_inv_head in E2. subst rest'. destruct (IH _ _ HR') as [-> ->]. auto.
Qed.

Lemma sr_loop_ok (from to : list A) : from <> [] -> forall fuel pre rest count, length rest < fuel ->
  exists out n, sr_loop eqb fuel (pre ++ rest) from to (length pre) count = Ret (pre ++ out, count + n) /\ replaced from to rest out n.
Proof.
  intros Hf. induction fuel as [|fu IH]; intros pre rest count Hl; [lia|]. cbn [sr_loop]. unfold find_from.
  replace (Nat.leb (length pre) (length (pre ++ rest))) with true by (symmetry; apply Nat.leb_le; rewrite app_length; lia).
  rewrite skipn_len. pose proof (find_ok from rest) as F. destruct (find eqb rest from) as [i|]; cbn [option_map].
  - destruct F as (p & r & HF & <-). pose proof HF as [Hr _].
    assert (E : replace_at (pre ++ rest) (length pre + length p) (length from) to = (pre ++ p ++ to) ++ r).
    { unfold replace_at. rewrite Hr. rewrite <- app_length. rewrite (app_assoc pre p (from ++ r)). rewrite firstn_len.
      rewrite <- app_length. rewrite (app_assoc (pre ++ p) from r), skipn_len. rewrite <- !app_assoc. reflexivity. }
    rewrite E. replace (length pre + length p + length to) with (length (pre ++ p ++ to)) by (rewrite !app_length; lia).
    assert (Hlr : length r < length rest) by (rewrite Hr, !app_length; destruct from; [congruence|cbn [length]; lia]).
    destruct (Nat.leb_spec (length ((pre ++ p ++ to) ++ r)) (length (pre ++ p ++ to))) as [L|L].
    + rewrite app_length in L. assert (r = []) by (apply length_zero_iff_nil; lia). subst r.
      exists (p ++ to ++ []), 1. rewrite Nat.add_1_r, !app_nil_r. split; [reflexivity|].
      replace (p ++ to) with (p ++ to ++ []) by (rewrite app_nil_r; reflexivity). apply rep_some with (rest := []); [exact HF|]. constructor. intros q r' H. destruct q; [|discriminate]. destruct from; [congruence|discriminate].
    + destruct (IH (pre ++ p ++ to) r (S count)) as (out & n & E2 & HR); [lia|].
      rewrite E2. exists (p ++ to ++ out), (S n). split; [|eapply rep_some; eassumption].
      f_equal. f_equal; [rewrite <- !app_assoc; reflexivity|lia].
  - exists rest, 0. rewrite Nat.add_0_r. split; [reflexivity|constructor; exact F].
Qed.
End proofs.

(** C28 *)
Theorem C28_strip : forall (A : Type) (eqb : A -> A -> bool), (forall x y, eqb x y = true <-> x = y) ->
  forall s ws : list A, stripped (fun c => In c ws) s (strip eqb s ws) /\ (Forall (fun c => In c ws) s -> strip eqb s ws = []).
Proof.
  intros A eqb He s ws. pose proof (strip_correct eqb He s ws) as H. split; [exact H|].
  intros HF. destruct H as (a & b & E & _ & _ & H & _). destruct (strip eqb s ws) as [|x t]; [reflexivity|].
  exfalso. apply (H x t eq_refl). rewrite Forall_forall in HF. apply HF. rewrite E. apply in_or_app. right. left. reflexivity.
Qed.
Print Assumptions C28_strip.

(** the specification determines the result *)
Theorem C28_unique : forall (A : Type) (blank : A -> Prop) (s o o' : list A), stripped blank s o -> stripped blank s o' -> o = o'.
Proof.
  intros A blank s o o' (a & b & E & Fa & Fb & H1 & H2) (a' & b' & E' & Fa' & Fb' & H1' & H2').
  rewrite Forall_forall in *.
  destruct o as [|x t].
  - destruct o' as [|x' t']; [reflexivity|exfalso]. apply (H1' x' t' eq_refl). cbn [app] in E.
    assert (In x' s) by (rewrite E'; apply in_or_app; right; left; reflexivity). rewrite E in H. apply in_app_or in H. destruct H; auto.
  - destruct o' as [|x' t'].
    + exfalso. apply (H1 x t eq_refl). cbn [app] in E'.
      assert (In x s) by (rewrite E; apply in_or_app; right; left; reflexivity). rewrite E' in H. apply in_app_or in H. destruct H; auto.
    + assert (Ea : a = a').
      { rewrite E in E'. apply app_eq_app in E'. destruct E' as (m & [[E1 E2]|[E1 E2]]).
        - destruct m as [|y m]; [rewrite app_nil_r in E1; exact E1|exfalso]. injection E2 as -> _. apply (H1' y t' eq_refl), Fa. rewrite E1. apply in_or_app. right. left. reflexivity.
        - destruct m as [|y m]; [rewrite app_nil_r in E1; congruence|exfalso]. injection E2 as -> _. apply (H1 y t eq_refl), Fa'. rewrite E1. apply in_or_app. right. left. reflexivity. }
      subst a'. rewrite E in E'. apply app_inv_head in E'. apply app_eq_app in E'. destruct E' as (m & [[E1 E2]|[E1 E2]]).
      * destruct m as [|y m] using rev_ind; [rewrite app_nil_r in E1; exact E1|exfalso].
        apply (H2 y ((x' :: t') ++ m)); [rewrite E1, app_assoc; reflexivity|]. apply Fb'. rewrite E2. apply in_or_app. left. apply in_or_app. right. left. reflexivity.
      * destruct m as [|y m] using rev_ind; [rewrite app_nil_r in E1; congruence|exfalso].
        apply (H2' y ((x :: t) ++ m)); [rewrite E1, app_assoc; reflexivity|]. apply Fb. rewrite E2. apply in_or_app. left. apply in_or_app. right. left. reflexivity.
Qed.
Print Assumptions C28_unique.
Example C28_example : strip Nat.eqb [0; 1; 5; 0; 6; 1; 0] [0; 1] = [5; 0; 6].
Proof. reflexivity. Qed.

(** C29: with a non-empty pattern the call ends (after at most one iteration per
    character) with the left-most non-overlapping replacement and its count *)
Theorem C29_search_replace : forall (A : Type) (eqb : A -> A -> bool), (forall x y, eqb x y = true <-> x = y) ->
  forall (s from to : list A) fuel, from <> [] -> length s < fuel ->
  exists out n, search_replace eqb fuel s from to = Ret (out, n) /\ replaced from to s out n /\
    forall out' n', replaced from to s out' n' -> out' = out /\ n' = n.
Proof.
  intros A eqb He s from to fuel Hf Hl.
  assert (G : exists out n, search_replace eqb fuel s from to = Ret (out, n) /\ replaced from to s out n).
  { unfold search_replace. destruct s as [|c s].
    - exists [], 0. split; [reflexivity|]. constructor. intros q r H. destruct q; [|discriminate]. destruct from; [congruence|discriminate].
    - destruct (sr_loop_ok eqb He from to Hf fuel [] (c :: s) 0 Hl) as (out & n & E & H). exists out, n. split; [exact E|exact H]. }
  destruct G as (out & n & E & H). exists out, n. split; [exact E|]. split; [exact H|]. intros out' n' H'. apply (replaced_fun from to s); assumption.
Qed.
Print Assumptions C29_search_replace.

(** the empty pattern never ends *)
Theorem C29_empty_pattern_refuted : forall (A : Type) (eqb : A -> A -> bool) (s to : list A) fuel, s <> [] ->
  search_replace eqb fuel s [] to = Fuel.
Proof.
  intros A eqb s to fuel Hs. unfold search_replace. destruct s as [|c s]; [congruence|].
  assert (G : forall fuel (s : list A) loc count, loc < length s -> sr_loop eqb fuel s [] to loc count = Fuel).
  { clear. induction fuel as [|fu IH]; intros s loc count Hl; [reflexivity|]. cbn [sr_loop]. unfold find_from.
    replace (Nat.leb loc (length s)) with true by (symmetry; apply Nat.leb_le; lia).
    replace (find eqb (skipn loc s) []) with (Some 0) by (destruct (skipn loc s); reflexivity). cbn [option_map length].
    assert (L : loc + length to < length (replace_at s loc 0 to)).
    { unfold replace_at. rewrite !app_length, firstn_length, skipn_length. lia. }
    rewrite !Nat.add_0_r. destruct (Nat.leb_spec (length (replace_at s loc 0 to)) (loc + length to)); [lia|]. apply IH. lia. }
  apply G. simpl. lia.
Qed.
Print Assumptions C29_empty_pattern_refuted.

Example C29_example : search_replace Nat.eqb 6 [1; 1; 1; 2; 1; 1] [1; 1] [1; 1; 1] = Ret ([1; 1; 1; 1; 2; 1; 1; 1], 2).
Proof. reflexivity. Qed.
