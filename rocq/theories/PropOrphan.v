(** C24, C25, C51: StackVector, static_list, template_config. *)
From Coq Require Import List Arith ZArith Lia Bool.
From Verif Require Import Num PolyBase OrphanModel OrphanSpec.
Import ListNotations.
Open Scope nat_scope.

(* ------------------------------------------------------------------ C24 *)
(** the StackVector [s] of capacity [cap] holds the sequence [l] *)
Definition holds {T} (cap : nat) (s : svec T) (l : list T) : Prop :=
  length (slots s) = cap /\ sz s <= cap /\ sv_contents s = l.

Lemma holds_len {T} cap (s : svec T) l : holds cap s l -> length l = sz s.
Proof. intros (H1 & H2 & <-). unfold sv_contents. rewrite firstn_length. lia. Qed.

Lemma firstn_upd {T} (x : T) : forall l k, k < length l -> firstn (S k) (upd l k x) = firstn k l ++ [x].
Proof.
  induction l as [|a t IH]; intros k Hk; cbn [length] in Hk; [lia|]. destruct k; [reflexivity|].
  change (a :: firstn (S k) (upd t k x) = a :: (firstn k t ++ [x])). rewrite IH by lia. reflexivity.
Qed.
Lemma length_upd {T} (x : T) : forall l k, length (upd l k x) = length l.
Proof. induction l as [|a t IH]; intros [|k]; simpl; auto. Qed.

Lemma push_ok {T} debug cap (s : svec T) l x : holds cap s l -> length l < cap ->
  exists s', sv_push_back debug s x = (s', Done) /\ holds cap s' (l ++ [x]).
Proof.
  intros H Hl. pose proof (holds_len _ _ _ H) as HL. destruct H as (H1 & H2 & H3). unfold sv_push_back.
  replace (Nat.ltb (length (slots s)) (sz s + 1)) with false by (symmetry; apply Nat.ltb_ge; lia).
  rewrite andb_false_r. destruct (Nat.ltb_spec (sz s) (length (slots s))); [|lia].
  eexists. split; [reflexivity|]. split; [cbn [slots]; rewrite length_upd; exact H1|]. split; [cbn [sz]; lia|].
  unfold sv_contents in *. cbn [slots sz]. rewrite firstn_upd by lia. rewrite H3. reflexivity.
Qed.
Lemma push_full {T} cap (s : svec T) l x : holds cap s l -> cap <= length l -> sv_push_back true s x = (s, Exc).
Proof.
  intros H Hl. pose proof (holds_len _ _ _ H) as HL. destruct H as (H1 & H2 & H3). unfold sv_push_back.
  replace (Nat.ltb (length (slots s)) (sz s + 1)) with true by (symmetry; apply Nat.ltb_lt; lia). reflexivity.
Qed.

Lemma extend_ok {T} debug cap m : forall (s : svec T) l, holds cap s l -> length l + length m <= cap ->
  exists s', sv_extend_by debug s m = (s', Done) /\ holds cap s' (l ++ m).
Proof.
  induction m as [|a t IH]; intros s l H Hl; cbn [sv_extend_by length] in *.
  - exists s. rewrite app_nil_r. auto.
  - destruct (push_ok debug cap s l a H) as (s' & -> & H'); [lia|].
    destruct (IH s' (l ++ [a]) H') as (s2 & E & H2); [rewrite app_length; simpl; lia|].
    exists s2. split; [exact E|]. rewrite <- app_assoc in H2. exact H2.
Qed.
Lemma extend_full {T} cap m : forall (s : svec T) l, holds cap s l -> cap < length l + length m ->
  exists s', sv_extend_by true s m = (s', Exc) /\ holds cap s' (l ++ firstn (cap - length l) m).
Proof.
  induction m as [|a t IH]; intros s l H Hl; cbn [sv_extend_by length] in *.
  - pose proof (holds_len _ _ _ H). destruct H as (H1 & H2 & H3). lia.
  - destruct (Nat.lt_ge_cases (length l) cap) as [Hc|Hc].
    + destruct (push_ok true cap s l a H) as (s' & -> & H'); [lia|].
      destruct (IH s' (l ++ [a]) H') as (s2 & E & H2); [rewrite app_length; simpl; lia|].
      exists s2. split; [exact E|]. rewrite app_length in H2. cbn [length] in H2.
      replace (cap - length l) with (S (cap - (length l + 1))) by lia. cbn [firstn]. rewrite <- app_assoc in H2. exact H2.
    + rewrite (push_full cap s l a H Hc). exists s. split; [reflexivity|].
      replace (cap - length l) with 0 by lia. cbn [firstn]. rewrite app_nil_r. exact H.
Qed.

Lemma last_slot {T} cap (s : svec T) l x r : holds cap s l -> rev l = x :: r ->
  sz s = S (length r) /\ nth_error (slots s) (sz s - 1) = Some x /\ l = rev r ++ [x].
Proof.
  intros H E. pose proof (holds_len _ _ _ H) as HL. destruct H as (H1 & H2 & H3).
  assert (El : l = rev r ++ [x]) by (rewrite <- (rev_involutive l), E; reflexivity).
  assert (Hs : sz s = S (length r)) by (rewrite <- HL, El, app_length, rev_length; simpl; lia).
  split; [exact Hs|]. split; [|exact El]. unfold sv_contents in H3.
  rewrite <- (firstn_skipn (sz s) (slots s)), H3, El. rewrite nth_error_app1 by (rewrite app_length, rev_length; simpl; lia).
  rewrite nth_error_app2 by (rewrite rev_length; lia). rewrite rev_length. replace (sz s - 1 - length r) with 0 by lia. reflexivity.
Qed.

Lemma step_ok {T} debug cap (s : svec T) l o : holds cap s l ->
  debug = true \/ snd (spec_step cap l o) <> Exc -> (o = Back -> l <> []) ->
  exists s', sv_step debug s o = (s', snd (spec_step cap l o)) /\ holds cap s' (fst (spec_step cap l o)) /\ snd (spec_step cap l o) <> Undef.
Proof.
  intros H HD HB. pose proof (holds_len _ _ _ H) as HL. destruct o as [x| | |m]; cbn [spec_step sv_step] in *.
  - destruct (Nat.ltb_spec (length l) cap) as [Hl|Hl]; cbn [fst snd] in *.
    + destruct (push_ok debug cap s l x H Hl) as (s' & E & H'). exists s'. repeat split; auto; try apply H'; discriminate.
    + destruct HD as [->|HD]; [|congruence]. exists s. rewrite (push_full cap s l x H Hl). repeat split; try apply H; discriminate.
  - destruct (rev l) as [|x r] eqn:E; cbn [fst snd] in *.
    + destruct HD as [->|HD]; [|congruence]. exists s.
      assert (l = []) by (rewrite <- (rev_involutive l), E; reflexivity). subst l. cbn [length] in HL.
      unfold sv_pop_back. rewrite <- HL. repeat split; try apply H; discriminate.
    + destruct (last_slot _ _ _ _ _ H E) as (Hs & Hn & El). unfold sv_pop_back. rewrite Hs in *. cbn [Nat.eqb].
      rewrite andb_false_r. rewrite <- Nat.add_1_r, Nat.add_sub in Hn. rewrite Hn.
      eexists. split; [reflexivity|]. split; [|discriminate]. destruct H as (H1 & H2 & H3). split; [exact H1|]. split; [cbn [sz]; lia|].
      unfold sv_contents in *. cbn [slots sz]. rewrite Hs in H3.
      assert (H0 : firstn (length r) (firstn (S (length r)) (slots s)) = firstn (length r) (rev r ++ [x])) by (rewrite H3, El; reflexivity).
      rewrite firstn_firstn in H0. rewrite Nat.min_l in H0 by lia. rewrite H0, firstn_app, rev_length, Nat.sub_diag. cbn [firstn].
      rewrite app_nil_r. rewrite <- (rev_length r) at 1. apply firstn_all.
  - destruct (rev l) as [|x r] eqn:E; cbn [fst snd] in *.
    + exfalso. apply HB; [reflexivity|]. rewrite <- (rev_involutive l), E. reflexivity.
    + destruct (last_slot _ _ _ _ _ H E) as (Hs & Hn & El). unfold sv_back. rewrite Hn. exists s. split; [reflexivity|]. split; [exact H|discriminate].
  - destruct (Nat.leb_spec (length l + length m) cap) as [Hl|Hl]; cbn [fst snd] in *.
    + destruct (extend_ok debug cap m s l H Hl) as (s' & E & H'). exists s'. split; [exact E|]. split; [exact H'|discriminate].
    + destruct HD as [->|HD]; [|congruence]. destruct (extend_full cap m s l H Hl) as (s' & E & H').
      exists s'. split; [exact E|]. split; [exact H'|discriminate].
Qed.

(** back() is only called when something is stored *)
Fixpoint back_nonempty {T} (cap : nat) (l : list T) (os : list svop) : Prop :=
  match os with
  | [] => True
  | o :: t => (o = Back -> l <> []) /\ back_nonempty cap (fst (spec_step cap l o)) t
  end.

Lemma run_ok {T} debug cap os : forall (s : svec T) l, holds cap s l ->
  debug = true \/ ~ In Exc (snd (spec_run cap l os)) -> back_nonempty cap l os ->
  exists s', sv_run debug s os = (s', snd (spec_run cap l os)) /\ holds cap s' (fst (spec_run cap l os)).
Proof.
  induction os as [|o t IH]; intros s l H HD HB; cbn [sv_run spec_run] in *.
  - exists s. auto.
  - destruct HB as [HB1 HB2]. destruct (step_ok debug cap s l o H) as (s' & E & H' & NU); [|exact HB1|].
    { destruct HD as [HD|HD]; [left; exact HD|right]. intros E. apply HD.
      destruct (spec_step cap l o) as [l' r]. destruct (spec_run cap l' t). left. exact E. }
    destruct (spec_step cap l o) as [l' r] eqn:ES. cbn [fst snd] in *. rewrite E.
    destruct (IH s' l' H') as (s2 & E2 & H2); [|exact HB2|].
    { destruct HD as [HD|HD]; [left; exact HD|right]. intros Ei. apply HD. destruct (spec_run cap l' t). right. exact Ei. }
    destruct (spec_run cap l' t) as [l2 rs] eqn:ER. cbn [fst snd] in *. rewrite E2. exists s2. split; [|exact H2].
    destruct r; try reflexivity. congruence.
Qed.

Lemma holds_new {T} cap (fill : T) : holds cap (sv_new cap fill) [].
Proof. unfold holds, sv_new, sv_contents; cbn [slots sz firstn]. rewrite repeat_length. repeat split. lia. Qed.

(** debug build: every history gives the observations of the bounded list, an
    operation that does not fit raises and later operations go on from there *)
Theorem C24_debug : forall (T : Type) cap (fill : T) (os : list svop), back_nonempty cap [] os ->
  snd (sv_run true (sv_new cap fill) os) = snd (spec_run cap [] os) /\
  sv_contents (fst (sv_run true (sv_new cap fill) os)) = fst (spec_run cap [] os).
Proof.
  intros T cap fill os HB. destruct (run_ok true cap os (sv_new cap fill) [] (holds_new cap fill)) as (s' & -> & H); auto.
  split; [reflexivity|apply H].
Qed.
Print Assumptions C24_debug.

(** release build: the same as long as no operation overflows or underflows *)
Theorem C24_release : forall (T : Type) cap (fill : T) (os : list svop), back_nonempty cap [] os ->
  ~ In Exc (snd (spec_run cap [] os)) ->
  snd (sv_run false (sv_new cap fill) os) = snd (spec_run cap [] os) /\
  sv_contents (fst (sv_run false (sv_new cap fill) os)) = fst (spec_run cap [] os) /\
  sv_rcontents (fst (sv_run false (sv_new cap fill) os)) = rev (fst (spec_run cap [] os)) /\
  sv_empty (fst (sv_run false (sv_new cap fill) os)) = match fst (spec_run cap [] os) with [] => true | _ => false end.
Proof.
  intros T cap fill os HB HE. destruct (run_ok false cap os (sv_new cap fill) [] (holds_new cap fill)) as (s' & -> & H); auto.
  cbn [fst snd]. pose proof (holds_len _ _ _ H) as HL. destruct H as (H1 & H2 & H3). split; [reflexivity|]. split; [exact H3|].
  split; [unfold sv_rcontents; unfold sv_contents in H3; rewrite H3; reflexivity|].
  unfold sv_empty. rewrite <- HL. destruct (fst (spec_run cap [] os)); reflexivity.
Qed.
Print Assumptions C24_release.

(** no undefined behaviour in debug builds, even with back() on an empty vector, as
    soon as the capacity is positive *)
Theorem C24_debug_safe : forall (T : Type) cap (fill : T) (os : list svop), 0 < cap ->
  ~ In Undef (snd (sv_run true (sv_new cap fill) os)).
Proof.
  intros T cap fill os Hc.
  assert (G : forall os (s : svec T) l, holds cap s l -> ~ In Undef (snd (sv_run true s os))).
  { clear os. induction os as [|o t IH]; intros s l H; cbn [sv_run]; [intros []|].
    assert (S1 : exists s' l', fst (sv_step true s o) = s' /\ holds cap s' l' /\ snd (sv_step true s o) <> Undef).
    { destruct (match o with Back => match l with [] => true | _ => false end | _ => false end) eqn:EB.
      - destruct o; try discriminate. destruct l; [|discriminate]. exists s, []. cbn [sv_step sv_back fst snd]. split; [reflexivity|]. split; [exact H|].
        pose proof (holds_len _ _ _ H) as HL. cbn [length] in HL. rewrite <- HL. cbn [Nat.sub]. destruct H as (H1 & _).
        destruct (slots s); [simpl in H1; lia|]. discriminate.
      - destruct (step_ok true cap s l o H (or_introl eq_refl)) as (s' & E & H' & NU).
        + intros -> ->. discriminate.
        + exists s', (fst (spec_step cap l o)). rewrite E. auto. }
    destruct S1 as (s' & l' & <- & H' & NU). destruct (sv_step true s o) as [s' r]. cbn [fst snd] in *.
    specialize (IH s' l' H'). destruct (sv_run true s' t) as [s2 rs]. cbn [snd] in *.
    destruct r; cbn [snd In]; intros [E|E]; try discriminate; try contradiction; congruence. }
  apply (G os _ [] (holds_new cap fill)).
Qed.
Print Assumptions C24_debug_safe.

(** release builds: an overflowing push_back or a pop_back of an empty vector is
    undefined behaviour *)
Theorem C24_release_unchecked : forall (T : Type) cap (s : svec T) l, holds cap s l ->
  (length l = cap -> forall x, snd (sv_push_back false s x) = Undef) /\
  (l = [] -> snd (sv_pop_back false s) = Undef).
Proof.
  intros T cap s l H. pose proof (holds_len _ _ _ H) as HL. destruct H as (H1 & H2 & H3). split.
  - intros Hl x. unfold sv_push_back. cbn [andb]. destruct (Nat.ltb_spec (sz s) (length (slots s))); [lia|reflexivity].
  - intros ->. unfold sv_pop_back. cbn [length] in HL. rewrite <- HL. reflexivity.
Qed.
Print Assumptions C24_release_unchecked.

(** construction from a list keeps the first [cap] elements; copying to a larger
    capacity keeps everything *)
Theorem C24_construct : forall (T : Type) debug cap (fill : T) (l : list T),
  sv_contents (sv_init debug cap fill l) = firstn cap l /\ length (slots (sv_init debug cap fill l)) = cap.
Proof.
  intros T debug cap fill l. unfold sv_init.
  assert (G : forall n l (s : svec T) k, holds cap s k -> length k + n <= cap -> holds cap (sv_init_loop debug n s l) (k ++ firstn n l)).
  { clear l. induction n as [|n IH]; intros l s k H Hn; cbn [sv_init_loop firstn]; [rewrite app_nil_r; exact H|].
    destruct l as [|a t]; [rewrite app_nil_r; exact H|].
    destruct (push_ok debug cap s k a H ltac:(lia)) as (s' & -> & H'). cbn [fst].
    replace (k ++ a :: firstn n t) with ((k ++ [a]) ++ firstn n t) by (rewrite <- app_assoc; reflexivity).
    apply IH; [exact H'|]. rewrite app_length; simpl; lia. }
  destruct (G cap l _ [] (holds_new cap fill)) as (H1 & H2 & H3); [simpl; lia|]. auto.
Qed.
Print Assumptions C24_construct.
Theorem C24_copy : forall (T : Type) cap cap2 (v : svec T) l (junk : list T), holds cap2 v l -> cap2 <= cap -> length junk = cap ->
  holds cap (sv_copy junk v) l.
Proof.
  intros T cap cap2 v l junk (H1 & H2 & H3) Hc Hj. unfold holds, sv_copy, sv_contents in *. cbn [slots sz].
  rewrite app_length, firstn_length, skipn_length. split; [lia|]. split; [lia|].
  rewrite firstn_app, firstn_length. replace (sz v - Nat.min (sz v) (length (slots v))) with 0 by lia. cbn [firstn]. rewrite app_nil_r.
  rewrite firstn_firstn, Nat.min_id. exact H3.
Qed.
Print Assumptions C24_copy.

Example C24_example :
  back_nonempty 2 [] [Push 5; Push 6; Push 7; Pop; Back; Extend [8; 9]; Pop; Pop; Pop] /\
  sv_run true (sv_new 2 0) [Push 5; Push 6; Push 7; Pop; Back; Extend [8; 9]; Pop; Pop; Pop] =
    (SV [5; 8] 0, [Done; Done; Exc; Val 6; Val 5; Exc; Val 8; Val 5; Exc]) /\
  ~ In Exc (snd (spec_run 3 [] [Push 5; Extend [6; 7]; Pop])).
Proof. split; [|split; [reflexivity|]]. - simpl. repeat split; discriminate. - simpl. intuition discriminate. Qed.

(* ------------------------------------------------------------------ C25 *)
Lemma make_helper_app {A} (l : list A) : forall acc, make_helper acc l = acc ++ l.
Proof. induction l as [|h t IH]; intros acc; cbn [make_helper]; [rewrite app_nil_r; reflexivity|]. rewrite IH, <- app_assoc. reflexivity. Qed.
Lemma reverse_helper_app {A} (l : list A) : forall acc, reverse_helper acc l = rev l ++ acc.
Proof. induction l as [|h t IH]; intros acc; cbn [reverse_helper rev]; [reflexivity|]. rewrite IH, <- app_assoc. reflexivity. Qed.
Lemma get_helper_nth {A} (d : A) (l : list A) : forall i j, j <= i -> get_helper d i j l = nth (i - j) l d.
Proof.
  induction l as [|h t IH]; intros i j Hj; cbn [get_helper]; [destruct (i - j); reflexivity|].
  destruct (Nat.eqb_spec i j); [subst; rewrite Nat.sub_diag; reflexivity|]. rewrite IH by lia.
  replace (i - j) with (S (i - S j)) by lia. reflexivity.
Qed.
Lemma replace_helper_ok {A} (v : A) (l : list A) : forall i j acc, j <= i -> i - j < length l ->
  replace_helper i j acc l v = Some (acc ++ firstn (i - j) l ++ v :: skipn (S (i - j)) l).
Proof.
  induction l as [|h t IH]; intros i j acc Hj Hi; cbn [length replace_helper] in *; [lia|].
  destruct (Nat.eqb_spec i j); [subst; rewrite Nat.sub_diag; reflexivity|]. rewrite IH by lia.
  replace (i - j) with (S (i - S j)) by lia. cbn [firstn skipn]. rewrite <- app_assoc. reflexivity.
Qed.
Lemma split_helper_true {A} (l : list A) : forall i j first second, i <= j ->
  split_helper i j first second l true = Some (first, second ++ l).
Proof.
  induction l as [|h t IH]; intros i j f s Hj; cbn [split_helper]; [rewrite app_nil_r; reflexivity|].
  replace (i <=? S j) with true by (symmetry; apply Nat.leb_le; lia). rewrite IH by lia. rewrite <- app_assoc. reflexivity.
Qed.
Lemma split_helper_false {A} (l : list A) : forall i j first, j < i ->
  split_helper i j first [] l false = Some (first ++ firstn (i - j) l, skipn (i - j) l).
Proof.
  induction l as [|h t IH]; intros i j f Hj; cbn [split_helper]; [rewrite firstn_nil, skipn_nil, app_nil_r; reflexivity|].
  destruct (Nat.leb_spec i (S j)).
  - rewrite split_helper_true by lia. replace (i - j) with 1 by lia. reflexivity.
  - rewrite IH by lia. replace (i - j) with (S (i - S j)) by lia. cbn [firstn skipn]. rewrite <- app_assoc. reflexivity.
Qed.

(** get, reverse, replace, append, prepend, size, merge, split, foreach *)
Theorem C25_static_list : forall (A : Type) (d : A) (l m : list A) (i : nat) (v : A),
  make_static_list l = l /\
  get_static_list_item d l i = nth_error l i /\
  reverse_static_list l = rev l /\
  (i < length l -> replace_static_list_item l i v = Some (firstn i l ++ v :: skipn (S i) l)) /\
  (length l <= i -> l <> [] -> replace_static_list_item l i v = None) /\
  append_static_list_item l v = l ++ [v] /\
  prepend_static_list_item l v = v :: l /\
  static_list_size l = length l /\
  merge_static_lists l m = l ++ m /\
  split_static_list l i = Some (firstn i l, skipn i l) /\
  static_foreach d l = Some l.
Proof.
  intros A d l m i v. split; [apply make_helper_app|]. split.
  { unfold get_static_list_item. destruct (Nat.ltb_spec i (length l)).
    - rewrite get_helper_nth by lia. rewrite Nat.sub_0_r. symmetry. apply nth_error_nth'. assumption.
    - symmetry. apply nth_error_None. assumption. }
  split; [unfold reverse_static_list; rewrite reverse_helper_app; apply app_nil_r|].
  split.
  { intros Hi. unfold replace_static_list_item. destruct l as [|h t]; [simpl in Hi; lia|].
    destruct (Nat.ltb_spec i (length (h :: t))); [|lia]. rewrite replace_helper_ok by lia. rewrite Nat.sub_0_r. reflexivity. }
  split.
  { intros Hi Hl. unfold replace_static_list_item. destruct l as [|h t]; [congruence|].
    destruct (Nat.ltb_spec i (length (h :: t))); [lia|]. reflexivity. }
  do 4 (split; [reflexivity|]). split.
  { unfold split_static_list. destruct l as [|h t]; [rewrite firstn_nil, skipn_nil; reflexivity|].
    destruct (Nat.eqb_spec i 0); [subst; apply split_helper_true; lia|].
    rewrite split_helper_false by lia. rewrite Nat.sub_0_r. reflexivity. }
  unfold static_foreach, static_list_size.
  assert (G : forall n i, i + n = length l -> foreach_helper d i n l = Some (skipn i l)).
  { clear i. induction n as [|n IH]; intros i Hi; cbn [foreach_helper].
    - rewrite skipn_all2 by lia. reflexivity.
    - rewrite IH by lia. unfold get_static_list_item. destruct (Nat.ltb_spec i (length l)); [|lia].
      rewrite get_helper_nth by lia. rewrite Nat.sub_0_r. f_equal.
      clear IH Hi. revert i H. induction l as [|h t IHl]; intros [|i] H; cbn [length] in *; try lia; [reflexivity|].
      cbn [nth skipn]. apply (IHl i). lia. }
  rewrite (G (length l) 0) by lia. reflexivity.
Qed.
Print Assumptions C25_static_list.

Example C25_example : replace_static_list_item [1; 2; 3] 1 9 = Some [1; 9; 3] /\
  split_static_list [1; 2; 3] 2 = Some ([1; 2], [3]) /\ get_static_list_item 0 [1; 2; 3] 3 = None.
Proof. repeat split. Qed.

(* ------------------------------------------------------------------ C51 *)
(** the value is that of the first entry with the wanted id, or the default *)
Theorem C51_first_match : forall (I V : Type) (same : I -> I -> bool),
  (forall a b, same a b = true <-> a = b) -> forall (d : I * V) (args : list (I * V)),
  (~ In (fst d) (map fst args) /\ config_get same d args = snd d) \/
  (exists pre v post, args = pre ++ (fst d, v) :: post /\ ~ In (fst d) (map fst pre) /\ config_get same d args = v).
Proof.
  intros I V same HS d args. induction args as [|[i v] rest IH]; cbn [config_get map fst].
  - left. split; [intros []|reflexivity].
  - cbn [snd]. destruct (same (fst d) i) eqn:E.
    + right. apply HS in E. subst i. exists [], v, rest. repeat split. intros [].
    + assert (Hne : i <> fst d) by (intros ->; assert (same (fst d) (fst d) = true) by (apply HS; reflexivity); congruence).
      destruct IH as [[H1 H2]|(pre & w & post & -> & H1 & H2)].
      * left. split; [|exact H2]. intros [H|H]; [congruence|contradiction].
      * right. exists ((i, v) :: pre), w, post. split; [reflexivity|]. split; [|exact H2]. cbn [map fst]. intros [H|H]; [congruence|contradiction].
Qed.
Print Assumptions C51_first_match.
Theorem C51_valid : forall (I V : Type) (same : I -> I -> bool),
  (forall a b, same a b = true <-> a = b) -> forall (valid : list I) (args : list (I * V)),
  is_valid same valid args = true <-> (forall a, In a args -> In (fst a) valid).
Proof.
  intros I V same HS valid args.
  assert (P : forall t l, is_present same t l = true <-> In t l).
  { intros t. induction l as [|x l IH]; cbn [is_present In]; [split; [discriminate|tauto]|].
    rewrite orb_true_iff, HS, IH. split; intros [H|H]; auto. }
  induction args as [|a rest IH]; cbn [is_valid]; [split; [intros _ x []|reflexivity]|].
  rewrite andb_true_iff, P, IH. split.
  - intros [H1 H2] x [<-|Hx]; auto.
  - intros H. split; [apply H; left; reflexivity|intros x Hx; apply H; right; exact Hx].
Qed.
Print Assumptions C51_valid.
Example C51_example : config_get Nat.eqb (1, 10) [(2, 20); (1, 30); (1, 40)] = 30 /\ is_valid Nat.eqb [1; 2] [(2, 20); (3, 0)] = false.
Proof. repeat split. Qed.
