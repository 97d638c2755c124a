(** C57: the text of an exception. *)
From Coq Require Import Ascii String List Arith Bool Lia.
From Verif Require Import ExceptionModel.
Import ListNotations.
Open Scope list_scope.

(** The English property: what() shows where the exception was thrown, followed
    by everything streamed into it, in that order. *)
Definition no_nul (s : list ascii) : Prop := ~ In zero s.

Lemma c_string_id s : no_nul s -> c_string s = s.
Proof.
  induction s as [|c s IH]; intros H; [reflexivity|]. simpl. destruct (Ascii.eqb_spec c zero) as [->|_].
  - exfalso. apply H. now left.
  - f_equal. apply IH. intros I. apply H. now right.
Qed.
Lemma skipn_skipn' {A} a : forall b (l : list A), skipn a (skipn b l) = skipn (b + a) l.
Proof. intros b. induction b; intros l; simpl; auto. destruct l; simpl; auto. now rewrite skipn_nil. Qed.
Lemma write_end b s : oss_write (mk_oss b (length b)) s = mk_oss (b ++ s) (length (b ++ s)).
Proof.
  unfold oss_write. simpl. rewrite firstn_all, skipn_all2 by lia. now rewrite app_nil_r, app_length.
Qed.
Lemma adds_end ms : forall b, fold_left exn_add ms (mk_oss b (length b)) = mk_oss (b ++ concat ms) (length (b ++ concat ms)).
Proof.
  induction ms as [|m ms IH]; intros b; simpl; [now rewrite app_nil_r|].
  unfold exn_add at 2. rewrite write_end, IH. now rewrite <- app_assoc.
Qed.
Lemma new_end p f m fi s l q : exn_new p f m fi s l q = mk_oss (p ++ f ++ m ++ fi ++ s ++ l ++ q) (length (p ++ f ++ m ++ fi ++ s ++ l ++ q)).
Proof.
  unfold exn_new. change oss_empty with (mk_oss [] (length (@nil ascii))). rewrite !write_end. now rewrite <- !app_assoc.
Qed.

Theorem C57_message :
  forall p f m fi s l q ms,
  no_nul (p ++ f ++ m ++ fi ++ s ++ l ++ q ++ concat ms) ->
  let e := fold_left exn_add ms (exn_new p f m fi s l q) in
  (* before the throw, as thrown, and after any number of further copies *)
  exn_what e = p ++ f ++ m ++ fi ++ s ++ l ++ q ++ concat ms /\
  exn_what (exn_thrown (exn_new p f m fi s l q) ms) = p ++ f ++ m ++ fi ++ s ++ l ++ q ++ concat ms /\
  forall n, exn_what (Nat.iter n exn_copy e) = exn_what e.
Proof.
  intros p f m fi s l q ms N e.
  assert (E : oss_str e = p ++ f ++ m ++ fi ++ s ++ l ++ q ++ concat ms).
  { unfold e. rewrite new_end, adds_end. unfold oss_str. simpl. now rewrite <- !app_assoc. }
  repeat split.
  - unfold exn_what. now rewrite E, c_string_id.
  - unfold exn_thrown, exn_what. change (oss_str (exn_copy (fold_left exn_add ms (exn_new p f m fi s l q)))) with (oss_str e). now rewrite E, c_string_id.
  - intros n. unfold exn_what. f_equal. induction n; simpl; auto.
Qed.
Print Assumptions C57_message.

(** What streaming into a copy (so: into any caught exception) does: the text is
    written over the beginning of the message. *)
Theorem C57_after_copy : forall e ms, oss_str (fold_left exn_add ms (exn_copy e)) = concat ms ++ skipn (length (concat ms)) (oss_str e).
Proof.
  intros e ms. unfold exn_copy, oss_of_str. set (b := oss_str e). clearbody b. clear e.
  assert (G : forall d r, fold_left exn_add ms (mk_oss (d ++ r) (length d)) = mk_oss (d ++ concat ms ++ skipn (length (concat ms)) r) (length (d ++ concat ms))).
  { induction ms as [|m ms IH]; intros d r; simpl; [now rewrite app_nil_r|].
    replace (exn_add (mk_oss (d ++ r) (length d)) m) with (mk_oss ((d ++ m) ++ skipn (length m) r) (length (d ++ m))).
    - rewrite IH. f_equal.
      + rewrite <- !app_assoc. do 3 f_equal. now rewrite skipn_skipn', app_length.
      + now rewrite !app_length, Nat.add_assoc.
    - unfold exn_add, oss_write. cbn [oss_pos oss_buf]. f_equal.
      + rewrite firstn_app, firstn_all, Nat.sub_diag. simpl. rewrite app_nil_r, <- app_assoc. do 2 f_equal.
        rewrite skipn_app. replace (skipn (length d + length m) d) with (@nil ascii) by (symmetry; apply skipn_all2; lia). simpl. f_equal. lia.
      + now rewrite app_length. }
  specialize (G [] b). simpl in G. rewrite G. reflexivity.
Qed.
Print Assumptions C57_after_copy.

(** Adding context to a caught exception destroys the beginning of its message. *)
Theorem C57_append_to_caught_refuted :
  exists e m : list ascii, no_nul e /\ no_nul m /\
    let caught := exn_thrown oss_empty [e] in
    exn_what caught = e /\
    exn_what (exn_add caught m) <> e ++ m /\
    ~ exists tail, exn_what (exn_add caught m) = e ++ tail.
Proof.
  exists (list_ascii_of_string "Exception thrown in [f]"), (list_ascii_of_string "context"). repeat split.
  - intros H. vm_compute in H. intuition congruence.
  - intros H. vm_compute in H. intuition congruence.
  - intros H. vm_compute in H. discriminate.
  - intros (t & H). apply (f_equal (firstn 1)) in H. vm_compute in H. discriminate.
Qed.
Print Assumptions C57_append_to_caught_refuted.

(** The hypotheses of C57_message are met. *)
Example C57_example :
  let s := list_ascii_of_string in
  exn_what (exn_thrown (exn_new (s "Exception thrown in ["%string) (s "getNode"%string) (s "] ("%string) (s "xml.hpp"%string) (s ":"%string) (s "165"%string) (s ")"%string)) [s "XML error: "%string; s "no node"%string])
  = s "Exception thrown in [getNode] (xml.hpp:165)XML error: no node"%string.
Proof. reflexivity. Qed.
