(** Proofs for C58-C60. *)
From Coq Require Import Ascii List Arith Bool Lia.
From Verif Require Import Outcome ExceptionModel XmlDocModel XmlDocSpec.
Import ListNotations.

Lemma text_eqb_eq a b : text_eqb a b = true <-> a = b.
Proof. unfold text_eqb. destruct (list_eq_dec ascii_dec a b); split; congruence. Qed.
Lemma text_eqb_refl a : text_eqb a a = true. Proof. now apply text_eqb_eq. Qed.

Lemma nth_set_nth {A} (a : A) : forall l i j, i < length l -> nth_error (set_nth l i a) j = if i =? j then Some a else nth_error l j.
Proof.
  induction l as [|x l IH]; intros i j H; simpl in H; [lia|].
  destruct i; destruct j; simpl; auto. unfold set_nth in IH. simpl. apply (IH i j). lia.
Qed.
Lemma length_set_nth {A} (a : A) l i : i < length l -> length (set_nth l i a) = length l.
Proof. intros H. unfold set_nth. rewrite app_length, firstn_length. cbn [length]. rewrite skipn_length. lia. Qed.
Lemma nth_upd d i f j : nth_error (upd d i f) j = if i =? j then option_map f (nth_error d j) else nth_error d j.
Proof.
  unfold upd. destruct (nth_error d i) as [n|] eqn:E.
  - rewrite nth_set_nth by (apply nth_error_Some; congruence). destruct (Nat.eqb_spec i j) as [->|]; auto. now rewrite E.
  - destruct (Nat.eqb_spec i j) as [->|]; auto. now rewrite E.
Qed.
Lemma length_upd d i f : length (upd d i f) = length d.
Proof. unfold upd. destruct (nth_error d i) eqn:E; auto. apply length_set_nth. apply nth_error_Some. congruence. Qed.

Lemma append_other d i name j : j < length d -> nth_error (fst (append_node d i name)) j =
  if i =? j then option_map (fun n => mk_node (x_name n) (x_value n) (x_attrs n) (x_parent n) (x_kids n ++ [length d])) (nth_error d j) else nth_error d j.
Proof. intros H. unfold append_node. cbn [fst]. rewrite nth_error_app1 by (now rewrite length_upd). apply nth_upd. Qed.
Lemma append_new d i name : nth_error (fst (append_node d i name)) (length d) = Some (mk_node (c_string name) (mk_val [] 0) [] (Some i) []).
Proof. unfold append_node. cbn [fst]. rewrite nth_error_app2 by (rewrite length_upd; lia). now rewrite length_upd, Nat.sub_diag. Qed.
Lemma append_len d i name : length (fst (append_node d i name)) = S (length d).
Proof. unfold append_node. cbn [fst]. rewrite app_length, length_upd. simpl. lia. Qed.

Lemma lt_of {A} (l : list A) i n : nth_error l i = Some n -> i < length l.
Proof. intros H. apply nth_error_Some. congruence. Qed.

(** Updates that keep the tree shape keep [wf] and [hok]. *)
Definition same_shape (d d' : doc) : Prop :=
  forall j, match nth_error d j, nth_error d' j with
            | Some n, Some m => x_parent n = x_parent m /\ x_kids n = x_kids m
            | None, None => True
            | _, _ => False end.
Lemma shape_get d d' : same_shape d d' -> forall j n, nth_error d j = Some n -> exists m, nth_error d' j = Some m /\ x_parent m = x_parent n /\ x_kids m = x_kids n.
Proof. intros S j n H. specialize (S j). rewrite H in S. destruct (nth_error d' j); [|contradiction]. destruct S. eauto. Qed.
Lemma shape_sym d d' : same_shape d d' -> same_shape d' d.
Proof. intros S j. specialize (S j). destruct (nth_error d j), (nth_error d' j); try tauto. destruct S; split; auto. Qed.
Lemma wf_shape d d' : same_shape d d' -> wf d -> wf d'.
Proof.
  intros S W. pose proof (shape_get _ _ (shape_sym _ _ S)) as G'. pose proof (shape_get _ _ S) as G. constructor.
  - destruct (wf_root _ W) as (n & H & P). destruct (G _ _ H) as (m & A & B & C). exists m. split; auto. congruence.
  - intros i n k H I. destruct (G' _ _ H) as (m & A & B & C). rewrite <- C in I. destruct (wf_kids _ W _ _ _ A I) as (q & D & E).
    destruct (G _ _ D) as (r & F & F1 & F2). exists r. split; auto. congruence.
  - intros k m i H P. destruct (G' _ _ H) as (q & A & B & C). rewrite <- B in P. destruct (wf_parent _ W _ _ _ A P) as (n & D & E).
    destruct (G _ _ D) as (r & F & F1 & F2). exists r. split; auto. congruence.
  - intros i n H. destruct (G' _ _ H) as (m & A & B & C). rewrite <- C. apply (wf_once _ W _ _ A).
  - intros i n H P. destruct (G' _ _ H) as (m & A & B & C). rewrite <- B in P. apply (wf_only _ W _ _ A P).
  - intros i n k H I. destruct (G' _ _ H) as (m & A & B & C). rewrite <- C in I. apply (wf_down _ W _ _ _ A I).
Qed.
Lemma hok_shape d d' h : same_shape d d' -> hok d h -> hok d' h.
Proof.
  intros S H. unfold hok in *. pose proof (shape_get _ _ S) as G. destruct (h_node h).
  - destruct H as (x & A & B). destruct (G _ _ A) as (m & C & D & E). exists m. split; auto. congruence.
  - destruct H as (p & x & A & B). destruct (G _ _ B) as (m & C & D & E). eauto.
Qed.
Lemma upd_shape d i f : (forall n, x_parent (f n) = x_parent n /\ x_kids (f n) = x_kids n) -> same_shape d (upd d i f).
Proof.
  intros F j. rewrite nth_upd. destruct (i =? j), (nth_error d j); simpl; auto. destruct (F x); auto.
Qed.

Lemma wf_append d i name : wf d -> i < length d -> wf (fst (append_node d i name)).
Proof.
  intros W L. set (d' := fst (append_node d i name)).
  assert (O : forall j m, nth_error d' j = Some m -> (j = length d /\ m = mk_node (c_string name) (mk_val [] 0) [] (Some i) []) \/
     (exists n, nth_error d j = Some n /\ x_parent m = x_parent n /\ x_kids m = if i =? j then x_kids n ++ [length d] else x_kids n)).
  { intros j m H. destruct (Nat.lt_ge_cases j (length d)) as [Hj|Hj].
    - right. unfold d' in H. rewrite append_other in H by auto. destruct (i =? j).
      + destruct (nth_error d j) as [n|]; [|discriminate]. inversion H; subst. exists n. simpl. auto.
      + exists m. auto.
    - left. pose proof (lt_of _ _ _ H) as B. unfold d' in B. rewrite append_len in B. assert (j = length d) by lia. subst j. split; auto.
      unfold d' in H. rewrite append_new in H. congruence. }
  assert (I : forall j n, nth_error d j = Some n -> exists m, nth_error d' j = Some m /\ x_parent m = x_parent n /\ x_kids m = if i =? j then x_kids n ++ [length d] else x_kids n).
  { intros j n H. unfold d'. rewrite append_other by (eapply lt_of; eauto). rewrite H. destruct (i =? j); simpl; eexists; repeat split; reflexivity. }
  assert (N : nth_error d' (length d) = Some (mk_node (c_string name) (mk_val [] 0) [] (Some i) [])) by apply append_new.
  constructor.
  - destruct (wf_root _ W) as (n & H & P). destruct (I _ _ H) as (m & A & B & C). exists m. split; auto. congruence.
  - intros a n k H K. destruct (O _ _ H) as [[-> ->]|(q & A & B & C)]; [destruct K|].
    assert (K' : In k (x_kids q) \/ (a = i /\ k = length d)).
    { rewrite C in K. destruct (Nat.eqb_spec i a) as [->|]; auto. apply in_app_or in K as [K|[K|[]]]; auto. }
    destruct K' as [K'|[-> ->]].
    + destruct (wf_kids _ W _ _ _ A K') as (m & D & E). destruct (I _ _ D) as (r & F & F1 & F2). exists r. split; auto. congruence.
    + eexists. split; [apply N|reflexivity].
  - intros k m p H P. destruct (O _ _ H) as [[-> ->]|(q & A & B & C)].
    + cbn in P. inversion P; subst p. destruct (nth_error d i) as [n|] eqn:E; [|apply nth_error_None in E; lia].
      destruct (I _ _ E) as (r & F & F1 & F2). exists r. split; auto. rewrite F2, Nat.eqb_refl. apply in_or_app. right. now left.
    + rewrite B in P. destruct (wf_parent _ W _ _ _ A P) as (n & D & E). destruct (I _ _ D) as (r & F & F1 & F2). exists r. split; auto.
      rewrite F2. destruct (i =? p); auto. apply in_or_app. now left.
  - intros a n H. destruct (O _ _ H) as [[-> ->]|(q & A & B & C)]; [constructor|]. rewrite C. pose proof (wf_once _ W _ _ A) as U.
    destruct (i =? a); auto. 
    assert (X : ~ In (length d) (x_kids q)). { intros K. destruct (wf_kids _ W _ _ _ A K) as (m & D & _). apply lt_of in D. lia. }
    clear - U X. induction (x_kids q) as [|z l IH]; simpl; [repeat constructor; auto|]. inversion U; subst. constructor.
    + rewrite in_app_iff. simpl. intros [?|[?|[]]]; auto. subst. apply X. now left.
    + apply IH; auto. intros ?. apply X. now right.
  - intros a n H P. destruct (O _ _ H) as [[-> ->]|(q & A & B & C)]; [discriminate|]. rewrite B in P. apply (wf_only _ W _ _ A P).
  - intros a n k H K. destruct (O _ _ H) as [[-> ->]|(q & A & B & C)]; [destruct K|].
    rewrite C in K. destruct (Nat.eqb_spec i a) as [->|].
    + apply in_app_or in K as [K|[K|[]]]; [eapply wf_down; eauto|]. subst k. auto.
    + eapply wf_down; eauto.
Qed.
Lemma hok_append d i name h : hok d h -> hok (fst (append_node d i name)) h.
Proof.
  intros H. unfold hok in *. destruct (h_node h).
  - destruct H as (x & A & B). rewrite append_other by (eapply lt_of; eauto). rewrite A. destruct (i =? n); simpl; eexists; split; try reflexivity; auto.
  - destruct H as (p & x & A & B). exists p. rewrite append_other by (eapply lt_of; eauto). rewrite B. destruct (i =? p); simpl; eauto.
Qed.

Lemma attr_shape d h name v d' : add_attribute d h name v = Ret d' -> same_shape d d'.
Proof. unfold add_attribute. destruct (h_node h); [|discriminate]. intros H. inversion H. apply upd_shape. intros; split; reflexivity. Qed.
Lemma set_shape d h v d' : set_value d h v = Ret d' -> same_shape d d'.
Proof. unfold set_value. destruct (h_node h); [|discriminate]. intros H. inversion H. apply upd_shape. intros; split; reflexivity. Qed.
Lemma app_shape d h v d' : add_value d h v = Ret d' -> same_shape d d'.
Proof.
  unfold add_value. destruct (h_node h) eqn:E; [|discriminate]. destruct (nth_error d n); [|discriminate]. destruct (_ =? 0); apply set_shape.
Qed.

Lemma kid_hok d i n k : wf d -> nth_error d i = Some n -> In k (x_kids n) -> hok d (mk_h (Some k) (Some i)).
Proof. intros W A K. destruct (wf_kids _ W _ _ _ A K) as (m & B & C). exists m. simpl. auto. Qed.

Lemma history_ok d0 d hs : wf d0 -> history d0 d hs -> wf d /\ Forall (hok d) hs.
Proof.
  intros W0.
  assert (FI : forall d hs h, Forall (hok d) hs -> In h hs -> hok d h) by (intros; eapply Forall_forall; eauto).
  induction 1 as [|d hs name d' h H IH E|d hs name h H IH E|d hs h name d' h' H IH I E|d hs h name v d' H IH I E|d hs h v d' H IH I E|d hs h v d' H IH I E
    |d hs h name h' H IH I E|d hs h name h' H IH I E|d hs h h' H IH I E|d hs h h' H IH I E|d hs h h' H IH I E|d hs h h' H IH I E]; try destruct IH as [W F].
  - split; auto.
  - pose proof (f_equal fst E) as E1. pose proof (f_equal snd E) as E2. cbn [fst snd] in *. destruct (wf_root _ W) as (n & R & _). pose proof (lt_of _ _ _ R).
    unfold doc_add_node in *. rewrite <- E1. split; [now apply wf_append|]. constructor.
    + rewrite <- E2. eexists. cbn [h_node append_node snd]. split; [apply append_new|reflexivity].
    + eapply Forall_impl; [|exact F]. intros; now apply hok_append.
  - split; auto. constructor; auto. unfold doc_get_node, first_node in E. destruct (wf_root _ W) as (n & R & _). rewrite R in E.
    destruct (find _ (x_kids n)) as [k|] eqn:Fd; [|discriminate]. inversion E; subst. apply find_some in Fd as [K _]. eapply kid_hok; eauto.
  - unfold add_node in E. pose proof (FI _ _ _ F I) as HO. unfold hok in HO. destruct (h_node h) as [i|] eqn:Hn; [|discriminate]. destruct HO as (n & A & B).
    assert (E0 : append_node d i name = (d', h')) by congruence. pose proof (f_equal fst E0) as E1. pose proof (f_equal snd E0) as E2. cbn [fst snd] in E1, E2. pose proof (lt_of _ _ _ A).
    rewrite <- E1. split; [now apply wf_append|]. constructor.
    + rewrite <- E2. eexists. cbn [h_node append_node snd]. split; [apply append_new|reflexivity].
    + eapply Forall_impl; [|exact F]. intros; now apply hok_append.
  - apply attr_shape in E. split; [eapply wf_shape; eauto|]. eapply Forall_impl; [|exact F]. intros; eapply hok_shape; eauto.
  - apply set_shape in E. split; [eapply wf_shape; eauto|]. eapply Forall_impl; [|exact F]. intros; eapply hok_shape; eauto.
  - apply app_shape in E. split; [eapply wf_shape; eauto|]. eapply Forall_impl; [|exact F]. intros; eapply hok_shape; eauto.
  - split; auto. constructor; auto. pose proof (FI _ _ _ F I) as HO. unfold find_node in E. unfold hok in HO. destruct (h_node h) as [i|]; [|discriminate].
    destruct HO as (n & A & B). inversion E. unfold first_node. rewrite A. destruct (find _ _) as [k|] eqn:Fd.
    + apply find_some in Fd as [K _]. eapply kid_hok; eauto.
    + exists i, n. auto.
  - split; auto. constructor; auto. pose proof (FI _ _ _ F I) as HO. unfold get_node, find_node in E. unfold hok in HO. destruct (h_node h) as [i|]; [|discriminate].
    destruct HO as (n & A & B). cbn [obind] in E. unfold first_node in E. rewrite A in E. destruct (find _ _) as [k|] eqn:Fd; [|discriminate].
    inversion E. apply find_some in Fd as [K _]. eapply kid_hok; eauto.
  - split; auto. constructor; auto. pose proof (FI _ _ _ F I) as HO. unfold get_first in E. unfold hok in HO. destruct (h_node h) as [i|]; [|discriminate].
    destruct HO as (n & A & B). inversion E. unfold first_any. rewrite A. destruct (x_kids n) as [|k r] eqn:K; cbn [hd_error].
    + exists i, n. auto.
    + eapply kid_hok; eauto. rewrite K. now left.
  - split; auto. constructor; auto. pose proof (FI _ _ _ F I) as HO. unfold incr, step in E. unfold hok in HO. destruct (h_node h) as [i|]; [|discriminate].
    destruct HO as (n & A & B). rewrite A in E. destruct (x_parent n) as [p|] eqn:P; [|discriminate]. inversion E. unfold hok. cbn [h_node h_parent]. rewrite B.
    destruct (wf_parent _ W _ _ _ A P) as (m & C & D). unfold next_sibling, siblings. rewrite A, P, C. destruct (find _ _) as [k|] eqn:Fd.
    + apply find_some in Fd as [K _]. assert (K' : In k (x_kids m)). { clear - K. induction (x_kids m) as [|z l IH]; simpl in *; auto. destruct (z =? i); auto. }
      destruct (wf_kids _ W _ _ _ C K') as (q & Q1 & Q2). exists q. auto.
    + exists p, m. auto.
  - split; auto. constructor; auto. pose proof (FI _ _ _ F I) as HO. unfold decr, step in E. unfold hok in HO. destruct (h_node h) as [i|]; [|discriminate].
    destruct HO as (n & A & B). rewrite A in E. destruct (x_parent n) as [p|] eqn:P; [|discriminate]. inversion E. unfold hok. cbn [h_node h_parent]. rewrite B.
    destruct (wf_parent _ W _ _ _ A P) as (m & C & D). unfold previous_sibling, siblings. rewrite A, P, C. destruct (find _ _) as [k|] eqn:Fd.
    + apply find_some in Fd as [K _]. assert (K' : In k (x_kids m)). { apply in_rev. clear - K. induction (rev (x_kids m)) as [|z l IH]; simpl in *; auto. destruct (z =? i); auto. }
      destruct (wf_kids _ W _ _ _ C K') as (q & Q1 & Q2). exists q. auto.
    + exists p, m. auto.
  - split; auto. constructor; auto. pose proof (FI _ _ _ F I) as HO. unfold get_parent in E. unfold hok in HO.
    assert (X : forall p, h_parent h = Some p -> exists q, nth_error d p = Some q).
    { intros p P. destruct (h_node h) as [i|].
      - destruct HO as (n & A & B). rewrite P in B. symmetry in B. destruct (wf_parent _ W _ _ _ A B) as (q & Q & _). eauto.
      - destruct HO as (p' & n & A & B). assert (p = p') by congruence. subst. eauto. }
    destruct (h_parent h) as [p|]; [|discriminate]. inversion E. destruct (X p eq_refl) as (q & Q). exists q. cbn [h_node h_parent]. unfold parent_of. rewrite Q. auto.
Qed.

(** ** Walking *)
Lemma after_split i : forall pre r, ~ In i pre -> after i (pre ++ i :: r) = r.
Proof.
  induction pre as [|z l IH]; intros r H; simpl; [now rewrite Nat.eqb_refl|].
  destruct (Nat.eqb_spec z i) as [->|]; [exfalso; apply H; now left|]. apply IH. intros X. apply H. now right.
Qed.
Lemma find_split {A} (P : A -> bool) : forall l k, find P l = Some k -> exists a r, l = a ++ k :: r /\ P k = true /\ forall x, In x a -> P x = false.
Proof.
  induction l as [|z l IH]; intros k H; simpl in H; [discriminate|]. destruct (P z) eqn:E.
  - inversion H; subst. exists [], l. split; [reflexivity|]. split; auto. intros x [].
  - destruct (IH _ H) as (a & r & -> & B & C). exists (z :: a), r. split; [reflexivity|]. split; auto. intros x [->|X]; auto.
Qed.
Lemma find_after {A} (P : A -> bool) a r : (forall x, In x a -> P x = false) -> find P (a ++ r) = find P r.
Proof. induction a as [|z l IH]; intros H; simpl; auto. rewrite (H z) by now left. apply IH. intros; apply H; now right. Qed.
Lemma filter_none' {A} (P : A -> bool) a : (forall x, In x a -> P x = false) -> filter P a = [].
Proof. induction a as [|z l IH]; intros H; simpl; auto. rewrite (H z) by now left. apply IH. intros; apply H; now right. Qed.
Lemma find_none_filter {A} (P : A -> bool) l : find P l = None -> filter P l = [].
Proof. intros H. apply filter_none'. intros x. now apply find_none. Qed.

Lemma named_kids d i name : kids_named d i name = filter (named d name) (kids_of d i).
Proof.
  unfold kids_named. apply filter_ext. intros k. unfold named, name_of. now destruct (nth_error d k).
Qed.
Lemma siblings_kid d i k : wf d -> In k (kids_of d i) -> siblings d k = kids_of d i /\ exists m, nth_error d k = Some m /\ x_parent m = Some i.
Proof.
  intros W K. unfold kids_of in *. destruct (nth_error d i) as [n|] eqn:E; [|destruct K]. destruct (wf_kids _ W _ _ _ E K) as (m & A & B).
  split; eauto. unfold siblings. now rewrite A, B, E.
Qed.

Lemma walk_ok d i name : wf d -> forall l pre fuel, kids_of d i = pre ++ l -> length l < fuel ->
  walk fuel d (mk_h (find (named d name) l) (Some i)) = Ret (filter (named d name) l).
Proof.
  intros W l. remember (length l) as n eqn:L. revert l L. induction n as [n IH] using lt_wf_ind. intros l L pre fuel K Hf. subst n.
  destruct fuel as [|f]; [lia|]. cbn [walk]. cbn [h_node]. destruct (find (named d name) l) as [k|] eqn:F.
  2:{ now rewrite (find_none_filter _ _ F). }
  destruct (find_split _ _ _ F) as (a & r & -> & Pk & Na).
  assert (Kin : In k (kids_of d i)) by (rewrite K; apply in_or_app; right; apply in_or_app; right; now left).
  destruct (siblings_kid _ _ _ W Kin) as (Sk & m & A & B).
  assert (Nm : x_name m = name). { unfold named, name_of in Pk. rewrite A in Pk. cbn in Pk. now apply text_eqb_eq. }
  assert (ND : NoDup (kids_of d i)). { unfold kids_of in *. destruct (nth_error d i) eqn:E; [|destruct Kin]. eapply wf_once; eauto. }
  unfold incr, step. cbn [h_node h_parent]. rewrite A, B, Nm. cbn [obind]. unfold next_sibling. rewrite Sk, K, app_assoc, after_split.
  - rewrite (IH (length r)) with (pre := (pre ++ a) ++ [k]); auto.
    + cbn [obind]. rewrite filter_app, (filter_none' _ a Na). cbn [filter app]. now rewrite Pk.
    + rewrite app_length. simpl. lia.
    + rewrite K, <- !app_assoc. reflexivity.
    + rewrite app_length in Hf. simpl in Hf. lia.
  - rewrite K, app_assoc in ND. apply NoDup_remove_2 in ND. intros X. apply ND. apply in_or_app. now left.
Qed.

Lemma incr_decr d h j p : wf d -> hok d h -> valid h = true -> incr d h = Ret (mk_h (Some j) p) -> decr d (mk_h (Some j) p) = Ret h.
Proof.
  intros W H V E. unfold incr, step in E. unfold hok in H. destruct h as [[i|] hp]; cbn [h_node h_parent] in *; [|discriminate].
  destruct H as (n & A & B). rewrite A in E. destruct (x_parent n) as [q|] eqn:P; [|discriminate]. injection E as Ej Ep.
  destruct (wf_parent _ W _ _ _ A P) as (m & C & D). unfold next_sibling, siblings in Ej. rewrite A, P, C in Ej.
  destruct (in_split _ _ D) as (pre & post & Sp). pose proof (wf_once _ W _ _ C) as ND. rewrite Sp in *.
  pose proof (NoDup_remove_2 _ _ _ ND) as Ni. rewrite after_split in Ej by (intros X; apply Ni; apply in_or_app; now left).
  destruct (find_split _ _ _ Ej) as (mid & r & -> & Pj & Nmid).
  assert (Kj : In j (x_kids m)). { rewrite Sp. apply in_or_app. right. right. apply in_or_app. right. now left. }
  destruct (wf_kids _ W _ _ _ C Kj) as (mj & Aj & Bj).
  assert (Nm : x_name mj = x_name n). { unfold named, name_of in Pj. rewrite Aj in Pj. cbn in Pj. now apply text_eqb_eq. }
  unfold decr, step. cbn [h_node h_parent]. rewrite Aj, Bj, Nm. unfold previous_sibling, siblings. rewrite Aj, Bj, C, Sp.
  replace (rev (pre ++ i :: mid ++ j :: r)) with (rev r ++ j :: (rev mid ++ i :: rev pre)).
  2:{ rewrite !rev_app_distr. cbn [rev]. rewrite rev_app_distr. cbn [rev]. repeat (rewrite <- app_assoc; cbn [app]). reflexivity. }
  rewrite after_split.
  - rewrite find_after by (intros x X; apply Nmid; now apply in_rev). cbn [find]. unfold named at 1, name_of. rewrite A. cbn [option_map].
    rewrite text_eqb_refl. subst. reflexivity.
  - intros X. apply in_rev in X. replace (pre ++ i :: mid ++ j :: r) with ((pre ++ i :: mid) ++ j :: r) in ND by (rewrite <- app_assoc; reflexivity).
    apply NoDup_remove_2 in ND. apply ND. apply in_or_app. now right.
Qed.
Lemma decr_incr d h j p : wf d -> hok d h -> valid h = true -> decr d h = Ret (mk_h (Some j) p) -> incr d (mk_h (Some j) p) = Ret h.
Proof.
  intros W H V E. unfold decr, step in E. unfold hok in H. destruct h as [[i|] hp]; cbn [h_node h_parent] in *; [|discriminate].
  destruct H as (n & A & B). rewrite A in E. destruct (x_parent n) as [q|] eqn:P; [|discriminate]. injection E as Ej Ep.
  destruct (wf_parent _ W _ _ _ A P) as (m & C & D). unfold previous_sibling, siblings in Ej. rewrite A, P, C in Ej.
  apply in_rev in D. destruct (in_split _ _ D) as (pre & post & Sp). pose proof (NoDup_rev (wf_once _ W _ _ C)) as ND. rewrite Sp in *.
  pose proof (NoDup_remove_2 _ _ _ ND) as Ni. rewrite after_split in Ej by (intros X; apply Ni; apply in_or_app; now left).
  destruct (find_split _ _ _ Ej) as (mid & r & -> & Pj & Nmid).
  assert (Kj : In j (x_kids m)). { apply in_rev. rewrite Sp. apply in_or_app. right. right. apply in_or_app. right. now left. }
  destruct (wf_kids _ W _ _ _ C Kj) as (mj & Aj & Bj).
  assert (Nm : x_name mj = x_name n). { unfold named, name_of in Pj. rewrite Aj in Pj. cbn in Pj. now apply text_eqb_eq. }
  unfold incr, step. cbn [h_node h_parent]. rewrite Aj, Bj, Nm. unfold next_sibling, siblings. rewrite Aj, Bj, C. rewrite <- (rev_involutive (x_kids m)), Sp.
  replace (rev (pre ++ i :: mid ++ j :: r)) with (rev r ++ j :: (rev mid ++ i :: rev pre)).
  2:{ rewrite !rev_app_distr. cbn [rev]. rewrite rev_app_distr. cbn [rev]. repeat (rewrite <- app_assoc; cbn [app]). reflexivity. }
  rewrite after_split.
  - rewrite find_after by (intros x X; apply Nmid; now apply in_rev). cbn [find]. unfold named at 1, name_of. rewrite A. cbn [option_map].
    rewrite text_eqb_refl. subst. reflexivity.
  - intros X. apply in_rev in X. replace (pre ++ i :: mid ++ j :: r) with ((pre ++ i :: mid) ++ j :: r) in ND by (rewrite <- app_assoc; reflexivity).
    apply NoDup_remove_2 in ND. apply ND. apply in_or_app. now right.
Qed.

(** ** Attributes and values *)
Lemma c_string_idem s : c_string (c_string s) = c_string s.
Proof. induction s as [|c s IH]; simpl; auto. destruct (Ascii.eqb c zero) eqn:E; simpl; auto. rewrite E. now f_equal. Qed.
Lemma val_alloc_text s : val_text (val_alloc s) = c_string s.
Proof. unfold val_text, val_alloc. cbn [v_mem v_size]. apply firstn_all. Qed.
Lemma find_app {A} (P : A -> bool) a b : find P (a ++ b) = match find P a with Some x => Some x | None => find P b end.
Proof. induction a as [|z l IH]; simpl; auto. now destruct (P z). Qed.

Lemma key_match {T} (eqb : T -> T -> bool) val vals k :
  NoDup (map fst vals) -> key_of eqb val vals = Ret k -> exists v, match_loop k vals = Ret v /\ eqb val v = true.
Proof.
  induction vals as [|[k' v'] r IH]; intros ND H; simpl in *; [discriminate|]. inversion ND as [|x l X1 X2]; subst. destruct (eqb val v') eqn:E.
  - inversion H; subst. exists v'. rewrite text_eqb_refl. auto.
  - destruct (IH X2 H) as (v & A & B). destruct (text_eqb k k') eqn:K; [|eauto]. apply text_eqb_eq in K. subst. exfalso. apply X1.
    clear - H. revert H. induction r as [|[a b] r IH]; simpl; [discriminate|]. destruct (eqb val b); [intros H; inversion H; now left|intros H; right; auto].
Qed.

(** ** Error position *)
Lemma at_newline data i : Ascii.eqb (at_ data i) newline = true <-> is_newline data i.
Proof.
  unfold at_, is_newline. rewrite Ascii.eqb_eq. split; intros H.
  - destruct (nth_error data i) as [c|] eqn:E; [now rewrite (nth_error_nth _ _ _ E) in H; subst|].
    apply nth_error_None in E. rewrite nth_overflow in H by auto. discriminate.
  - now apply nth_error_nth.
Qed.
Lemma newlines_S data ptr : newlines_before data (S ptr) = newlines_before data ptr + if Ascii.eqb (at_ data ptr) newline then 1 else 0.
Proof.
  unfold newlines_before, at_; change "010"%char with newline. revert data. induction ptr as [|p IH]; intros [|c l]; try reflexivity.
  - simpl. now destruct (Ascii.eqb c newline).
  - specialize (IH l). cbn [nth]. change (firstn (S (S p)) (c :: l)) with (c :: firstn (S p) l). change (firstn (S p) (c :: l)) with (c :: firstn p l).
    cbn [filter]. destruct (Ascii.eqb c newline); cbn [length]; rewrite IH; reflexivity.
Qed.
Lemma count_lines_ok data : forall n ptr line, count_lines data ptr n line = line + (newlines_before data (ptr + n) - newlines_before data ptr).
Proof.
  induction n as [|m IH]; intros ptr line; cbn [count_lines]; [rewrite Nat.add_0_r; lia|].
  rewrite IH. replace (ptr + S m) with (S ptr + m) by lia.
  assert (M : newlines_before data (S ptr) <= newlines_before data (S ptr + m)).
  { clear. induction m; [rewrite Nat.add_0_r; lia|]. rewrite Nat.add_succ_r. pose proof (newlines_S data (S ptr + m)). lia. }
  pose proof (newlines_S data ptr) as N0. destruct (Ascii.eqb (at_ data ptr) newline); lia.
Qed.
Lemma back_ok data : forall s, back data s <= s /\ (back data s = 0 \/ is_newline data (back data s)) /\ forall i, back data s < i <= s -> ~ is_newline data i.
Proof.
  induction s as [|q IH]; cbn [back]; [repeat split; auto; intros; lia|].
  destruct (Ascii.eqb (at_ data (S q)) newline) eqn:E.
  - repeat split; auto; [right; now apply at_newline|intros; lia].
  - destruct IH as (A & B & C). repeat split; auto. intros i Hi. destruct (Nat.eq_dec i (S q)) as [->|].
    + rewrite <- at_newline. congruence.
    + apply C. lia.
Qed.
Lemma forth_ok data : forall n e, e <= length data -> length data < e + n ->
  e <= forth data e n <= length data /\ (forth data e n = length data \/ is_newline data (forth data e n)) /\ forall i, e <= i < forth data e n -> ~ is_newline data i.
Proof.
  induction n as [|m IH]; intros e L B; [lia|]. cbn [forth]. destruct (Ascii.eqb (at_ data e) newline) eqn:E.
  - repeat split; auto; [right; now apply at_newline|intros; lia].
  - destruct (Nat.eqb_spec e (length data)) as [->|]; [repeat split; auto; intros; lia|].
    destruct (IH (S e)) as (A1 & A2 & A3); try lia. repeat split; auto; try lia. intros i Hi. destruct (Nat.eq_dec i e) as [->|]; [rewrite <- at_newline; congruence|apply A3; lia].
Qed.
