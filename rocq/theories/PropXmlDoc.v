(** C58: navigating an XML document; C59: attributes and values; C60: the
    position of a parse error. *)
From Coq Require Import Ascii String List Arith Bool Lia.
From Verif Require Import Outcome ExceptionModel XmlDocModel XmlDocSpec XmlDocProofs.
Import ListNotations.
Open Scope list_scope.

Lemma ok_handle d0 d hs h : wf d0 -> history d0 d hs -> In h hs -> wf d /\ hok d h.
Proof. intros W H I. destruct (history_ok _ _ _ W H) as [A B]. split; auto. eapply Forall_forall; eauto. Qed.
Lemma ok_valid d0 d hs h i : wf d0 -> history d0 d hs -> In h hs -> h_node h = Some i -> wf d /\ exists n, nth_error d i = Some n /\ h_parent h = x_parent n.
Proof. intros W H I E. destruct (ok_handle _ _ _ _ W H I) as [A B]. split; auto. unfold hok in B. now rewrite E in B. Qed.

(** *** C58 *)
(** findNode / getNode / hasNode find the first child of that name in document
    order, and the loop with ++ visits exactly the children of that name, in
    order, and ends. *)
Theorem C58_children : forall d0 d hs h i name, wf d0 -> history d0 d hs -> In h hs -> h_node h = Some i ->
  (forall fuel, length (kids_of d i) < fuel -> walk_named fuel d h name = Ret (kids_named d i (c_string name))) /\
  get_node d h name = (match kids_named d i (c_string name) with k :: _ => Ret (mk_h (Some k) (Some i)) | [] => Throw end) /\
  has_node d h name = Ret (match kids_named d i (c_string name) with [] => false | _ => true end) /\
  get_first d h = Ret (mk_h (hd_error (kids_of d i)) (Some i)).
Proof.
  intros d0 d hs h i name W H I E. destruct (ok_valid _ _ _ _ _ W H I E) as (Wd & n & A & B).
  assert (FN : first_node d i (c_string name) = hd_error (kids_named d i (c_string name))).
  { unfold first_node. rewrite A, named_kids. unfold kids_of. rewrite A. induction (x_kids n) as [|z l IH]; simpl; auto. now destruct (named d (c_string name) z). }
  repeat split.
  - intros fuel L. unfold walk_named, find_node. rewrite E. cbn [obind]. rewrite named_kids. unfold first_node. rewrite A.
    replace (x_kids n) with (kids_of d i) by (unfold kids_of; now rewrite A). apply walk_ok with (pre := []); auto.
  - unfold get_node, find_node. rewrite E. cbn [obind]. rewrite FN. now destruct (kids_named d i (c_string name)).
  - unfold has_node. rewrite E, FN. now destruct (kids_named d i (c_string name)).
  - unfold get_first, first_any, kids_of. now rewrite E, A.
Qed.
Print Assumptions C58_children.

(** -- undoes ++ and ++ undoes --; neither leaves the parent. *)
Theorem C58_back_and_forth : forall d0 d hs h h', wf d0 -> history d0 d hs -> In h hs -> valid h' = true ->
  (incr d h = Ret h' -> decr d h' = Ret h /\ get_parent d h' = get_parent d h) /\
  (decr d h = Ret h' -> incr d h' = Ret h /\ get_parent d h' = get_parent d h).
Proof.
  intros d0 d hs h [[j|] p] W H I V; [|discriminate]. destruct (ok_handle _ _ _ _ W H I) as (Wd & Hk).
  assert (P : forall s, step s d h = Ret (mk_h (Some j) p) -> valid h = true /\ p = h_parent h).
  { intros s S. unfold step, valid in *. destruct (h_node h); [|discriminate]. split; auto. destruct (nth_error d n); [|discriminate]. destruct (x_parent x); [|discriminate]. inversion S. auto. }
  split; intros S; destruct (P _ S) as [Vh ->].
  - split; [eapply incr_decr; eauto|]. unfold get_parent. reflexivity.
  - split; [eapply decr_incr; eauto|]. unfold get_parent. reflexivity.
Qed.
Print Assumptions C58_back_and_forth.

(** The parent of a child found through h is h. *)
Theorem C58_parent : forall d0 d hs h c, wf d0 -> history d0 d hs -> In h hs ->
  (exists name, find_node d h name = Ret c) \/ (exists name, get_node d h name = Ret c) \/ get_first d h = Ret c ->
  get_parent d c = Ret h.
Proof.
  intros d0 d hs h c W H I Or. destruct (ok_handle _ _ _ _ W H I) as (Wd & Hk).
  assert (X : exists i o, h_node h = Some i /\ c = mk_h o (Some i)).
  { destruct Or as [(nm & E)|[(nm & E)|E]]; unfold get_node, find_node, get_first in E; destruct (h_node h) as [i|]; try discriminate; cbn [obind] in E.
    - inversion E. eauto.
    - unfold valid in E. cbn [h_node] in E. destruct (first_node d i (c_string nm)); [|discriminate]. inversion E. eauto.
    - inversion E. eauto. }
  destruct X as (i & o & Hi & ->). unfold get_parent. cbn [h_parent]. unfold hok in Hk. rewrite Hi in Hk. destruct Hk as (n & A & B).
  unfold parent_of. rewrite A, <- B. destruct h; cbn in *. now rewrite Hi.
Qed.
Print Assumptions C58_parent.

(** add_node appends one new, empty element to the children of the node and
    changes nothing else in the document. *)
Theorem C58_add_node : forall d0 d hs h i name, wf d0 -> history d0 d hs -> In h hs -> h_node h = Some i ->
  exists d' h' k, add_node d h name = Ret (d', h') /\ history d0 d' (h' :: hs) /\ h_node h' = Some k /\ ~ k < length d /\
    kids_of d' i = kids_of d i ++ [k] /\
    nth_error d' k = Some (mk_node (c_string name) (mk_val [] 0) [] (Some i) []) /\
    get_parent d' h' = Ret h /\
    (forall j, j <> i -> j < length d -> nth_error d' j = nth_error d j) /\
    (forall g, In g hs -> valid g = true -> get_name d' g = get_name d g /\ get_value d' g = get_value d g /\
       forall a, get_attribute d' g a = get_attribute d g a).
Proof.
  intros d0 d hs h i name W H I E. destruct (ok_valid _ _ _ _ _ W H I E) as (Wd & n & A & B).
  exists (fst (append_node d i name)), (snd (append_node d i name)), (length d). pose proof (lt_of _ _ _ A) as L.
  assert (R : add_node d h name = Ret (fst (append_node d i name), snd (append_node d i name))) by (unfold add_node; rewrite E; reflexivity).
  assert (Oth : nth_error (fst (append_node d i name)) i = Some (mk_node (x_name n) (x_value n) (x_attrs n) (x_parent n) (x_kids n ++ [length d]))).
  { rewrite append_other by auto. now rewrite Nat.eqb_refl, A. }
  repeat split.
  - exact R.
  - eapply hi_add; eauto.
  - lia.
  - unfold kids_of. rewrite Oth, A. reflexivity.
  - apply append_new.
  - unfold get_parent. cbn [append_node snd h_parent]. unfold parent_of. fold (append_node d i name). change (upd d i _ ++ _) with (fst (append_node d i name)).
    rewrite Oth. cbn [x_parent]. destruct h; cbn in *. now rewrite B, E.
  - intros j Hj Lj. rewrite append_other by auto. destruct (Nat.eqb_spec i j); congruence.
  - unfold get_name. destruct (h_node g) as [j|] eqn:Hg; auto. destruct (ok_valid _ _ _ _ _ W H H0 Hg) as (_ & m & Am & _).
    rewrite append_other by (eapply lt_of; eauto). destruct (i =? j); rewrite Am; reflexivity.
  - unfold get_value. destruct (h_node g) as [j|] eqn:Hg; auto. destruct (ok_valid _ _ _ _ _ W H H0 Hg) as (_ & m & Am & _).
    rewrite append_other by (eapply lt_of; eauto). destruct (i =? j); rewrite Am; reflexivity.
  - intros a. unfold get_attribute, get_attribute_string, attrs_of. destruct (h_node g) as [j|] eqn:Hg; auto. destruct (ok_valid _ _ _ _ _ W H H0 Hg) as (_ & m & Am & _).
    rewrite append_other by (eapply lt_of; eauto). destruct (i =? j); rewrite Am; reflexivity.
Qed.
Print Assumptions C58_add_node.

(** In every history, reading through a valid handle never follows a bad
    pointer, and reading through an invalid one throws; moving fails only on the
    document itself. *)
Theorem C58_safe : forall d0 d hs h, wf d0 -> history d0 d hs -> In h hs ->
  (valid h = false -> forall name, find_node d h name = Throw /\ get_node d h name = Throw /\ get_first d h = Throw /\
     has_node d h name = Throw /\ has_attribute d h name = Throw /\ get_attribute d h name = Throw /\ get_value d h = Throw /\
     incr d h = Throw /\ decr d h = Throw) /\
  (valid h = true -> (exists v, get_value d h = Ret v) /\ (exists v, get_name d h = Ret v) /\
     (h_node h <> Some 0 -> (exists g, incr d h = Ret g) /\ (exists g, decr d h = Ret g) /\ (exists g, get_parent d h = Ret g /\ valid g = true))).
Proof.
  intros d0 d hs h W H I. destruct (ok_handle _ _ _ _ W H I) as (Wd & Hk). unfold valid. split.
  - destruct (h_node h) as [i|] eqn:E; intros V; [discriminate|]. intros name.
    unfold find_node, get_node, get_first, has_node, has_attribute, get_attribute, get_value, incr, decr, step, find_node, get_attribute_string. rewrite E. repeat split.
  - destruct (h_node h) as [i|] eqn:E; intros V; [|discriminate]. unfold hok in Hk. rewrite E in Hk. destruct Hk as (n & A & B).
    unfold get_value, get_name, incr, decr, step, get_parent. rewrite E, A. repeat split; eauto.
    + destruct (x_parent n) eqn:P; eauto. exfalso. apply H0. f_equal. eapply wf_only; eauto.
    + destruct (x_parent n) eqn:P; eauto. exfalso. apply H0. f_equal. eapply wf_only; eauto.
    + rewrite B. destruct (x_parent n) eqn:P; [|exfalso; apply H0; f_equal; eapply wf_only; eauto]. eexists. split; reflexivity.
Qed.
Print Assumptions C58_safe.

(** Every call on every handle of every history, exactly: the queries are never
    undefined; the name and the writing calls are undefined just on invalid
    nodes; stepping just on the document itself; and an invalid node makes every
    other query throw. *)
Theorem C58_undefined_iff : forall d0 d hs h name v, wf d0 -> history d0 d hs -> In h hs ->
  (find_node d h name <> UB /\ get_node d h name <> UB /\ get_node_string d h name <> UB /\ get_first d h <> UB /\ has_node d h name <> UB /\
   has_attribute d h name <> UB /\ get_attribute d h name <> UB /\ get_attribute_string d h name <> UB /\
   get_value d h <> UB /\ get_parent d h <> UB) /\
  (get_name d h = UB <-> valid h = false) /\ (add_node d h name = UB <-> valid h = false) /\
  (add_attribute d h name v = UB <-> valid h = false) /\ (set_value d h v = UB <-> valid h = false) /\ (add_value d h v = UB <-> valid h = false) /\
  (incr d h = UB <-> h_node h = Some 0) /\ (decr d h = UB <-> h_node h = Some 0) /\
  (find_node d h name = Throw <-> valid h = false) /\ (get_value d h = Throw <-> valid h = false) /\
  (incr d h = Throw <-> valid h = false) /\ (decr d h = Throw <-> valid h = false).
Proof.
  intros d0 d hs h name v W H I. destruct (ok_handle _ _ _ _ W H I) as (Wd & Hk).
  unfold valid, find_node, get_node, get_node_string, get_first, has_node, has_attribute, get_attribute, get_attribute_string, get_value,
    get_name, add_node, add_attribute, set_value, add_value, incr, decr, step, find_node, get_parent, set_value, obind, valid, attr_value.
  destruct (h_node h) as [i|] eqn:E; cbn [a_ptr obind].
  - unfold hok in Hk. rewrite E in Hk. destruct Hk as (n & A & B). rewrite A.
    assert (P : x_parent n = None <-> i = 0).
    { split; intros Q; [eapply wf_only; eauto|]. subst i. destruct (wf_root _ Wd) as (r & R1 & R2). congruence. }
    destruct (v_size (x_value n) =? 0); destruct (x_parent n) eqn:Px; cbn [h_node];
      destruct (first_node d i (c_string name)); destruct (first_attribute (attrs_of d i) (c_string name)) as [[? ?]|]; destruct (h_parent h);
      repeat split; try discriminate; try tauto; intros Q; try discriminate; try (inversion Q; subst; destruct P as [P1 P2]; try specialize (P2 eq_refl); congruence);
      try (destruct P as [P1 P2]; rewrite P1; reflexivity).
  - destruct (h_parent h); repeat split; intros; try discriminate; auto.
Qed.
Print Assumptions C58_undefined_iff.

(** The document of the examples: <r><a/><b/><a/></r>, with an attribute. *)
Definition txt := list_ascii_of_string.
Fixpoint build (d : doc) (h : handle) (names : list text) : doc :=
  match names with
  | [] => d
  | n :: r => match add_node d h n with Ret (d', _) => build d' h r | _ => d end
  end.
Definition root : handle := mk_h (Some 1) (Some 0).
Definition example_doc : doc := build (fst (doc_add_node doc_new (txt "r"))) root [txt "a"; txt "b"; txt "a"].
Lemma wf_new : wf doc_new.
Proof.
  constructor.
  - eexists. split; reflexivity.
  - intros [|[|i]] n k H I; inversion H; subst; destruct I.
  - intros [|[|k]] m i H P; inversion H; subst; discriminate.
  - intros [|[|i]] n H; inversion H; subst; constructor.
  - intros [|[|i]] n H P; inversion H; auto.
  - intros [|[|i]] n k H I; inversion H; subst; destruct I.
Qed.
Example C58_example_history : exists hs, history doc_new example_doc hs /\ In root hs.
Proof.
  set (d1 := fst (doc_add_node doc_new (txt "r"))).
  assert (H1 : history doc_new d1 [root]) by (eapply hi_doc_add; [apply hi_start|reflexivity]).
  set (d2 := build d1 root [txt "a"]).
  assert (H2 : exists g, history doc_new d2 [g; root]) by (eexists; eapply hi_add with (h := root); [exact H1|now left|reflexivity]). destruct H2 as (g2 & H2).
  set (d3 := build d1 root [txt "a"; txt "b"]).
  assert (H3 : exists g, history doc_new d3 [g; g2; root]) by (eexists; eapply hi_add with (h := root); [exact H2|right; now left|reflexivity]). destruct H3 as (g3 & H3).
  assert (H4 : exists g, history doc_new example_doc [g; g3; g2; root]) by (eexists; eapply hi_add with (h := root); [exact H3|right; right; now left|reflexivity]).
  destruct H4 as (g4 & H4). exists [g4; g3; g2; root]. split; auto. simpl. auto.
Qed.
Example C58_example : walk_named 9 example_doc root (txt "a") = Ret [2; 4] /\ get_node example_doc root (txt "c") = Throw.
Proof. split; reflexivity. Qed.

(** A handle can be invalid (the end of a loop); getName and the writing members
    then dereference a null pointer. *)
Theorem C58_invalid_write_refuted : exists d hs h, history doc_new d hs /\ In h hs /\ valid h = false /\
  get_name d h = UB /\ add_node d h [] = UB /\ add_attribute d h [] [] = UB /\ set_value d h [] = UB.
Proof.
  destruct C58_example_history as (hs & H & I). exists example_doc. eexists. exists (mk_h None (Some 1)).
  split; [eapply (hi_find _ _ _ root (txt "nothere")); [exact H|exact I|reflexivity]|]. split; [now left|]. repeat split.
Qed.
Print Assumptions C58_invalid_write_refuted.

(** getNode with a std::string, unlike with a literal, does not report a missing
    node. *)
Theorem C58_missing_node_refuted : exists d hs h h', history doc_new d hs /\ In h hs /\
  get_node d h (txt "c") = Throw /\ get_node_string d h (txt "c") = Ret h' /\ valid h' = false /\ get_name d h' = UB.
Proof.
  destruct C58_example_history as (hs & H & I). exists example_doc, hs, root. eexists. repeat split; auto.
Qed.
Print Assumptions C58_missing_node_refuted.

(** *** C59 *)
Definition read_attr (d : doc) (h : handle) (name : text) : outcome text := do a <- get_attribute d h name; attr_value a.

Lemma read_attr_eq d h i n name : h_node h = Some i -> nth_error d i = Some n ->
  read_attr d h name = match first_attribute (x_attrs n) (c_string name) with Some (_, v) => Ret (val_text v) | None => Throw end.
Proof.
  intros E A. unfold read_attr, get_attribute, get_attribute_string, attrs_of. rewrite E, A. cbn [obind a_ptr].
  destruct (first_attribute (x_attrs n) (c_string name)) as [[k v]|] eqn:F; cbn [obind]; unfold attr_value; cbn [a_ptr]; try rewrite F; reflexivity.
Qed.
Lemma first_attribute_app l k v name : first_attribute (l ++ [(k, v)]) name =
  match first_attribute l name with Some x => Some x | None => if text_eqb k name then Some (k, v) else None end.
Proof. unfold first_attribute. rewrite find_app. cbn [find fst]. reflexivity. Qed.

(** After add_attribute(name, v) the attribute reads v, unless one of that name
    was there already (which stays); every other attribute, value, name and
    child is unchanged. *)
Theorem C59_add_attribute : forall d0 d hs h i name v, wf d0 -> history d0 d hs -> In h hs -> h_node h = Some i ->
  exists d', add_attribute d h name v = Ret d' /\ history d0 d' hs /\
  (has_attribute d h name = Ret false -> read_attr d' h name = Ret (c_string v)) /\
  (forall old, read_attr d h name = Ret old -> read_attr d' h name = Ret old) /\
  (forall other, c_string other <> c_string name -> read_attr d' h other = read_attr d h other) /\
  (forall g, In g hs -> valid g = true -> h_node g <> Some i -> forall a, read_attr d' g a = read_attr d g a) /\
  (forall g, In g hs -> valid g = true -> get_value d' g = get_value d g /\ get_name d' g = get_name d g) /\
  (forall j, kids_of d' j = kids_of d j).
Proof.
  intros d0 d hs h i name v W H I E. destruct (ok_valid _ _ _ _ _ W H I E) as (Wd & n & A & B).
  eexists. assert (R := eq_refl (add_attribute d h name v)). unfold add_attribute at 2 in R. rewrite E in R.
  split; [exact R|]. set (d' := upd d i _) in *. split; [eapply hi_attr; eauto|].
  set (n' := mk_node (x_name n) (x_value n) (x_attrs n ++ [(c_string name, val_alloc v)]) (x_parent n) (x_kids n)).
  assert (A' : nth_error d' i = Some n') by (unfold d'; rewrite nth_upd, Nat.eqb_refl, A; reflexivity).
  assert (O : forall j, j <> i -> nth_error d' j = nth_error d j) by (intros j Hj; unfold d'; rewrite nth_upd; destruct (Nat.eqb_spec i j); congruence).
  repeat split.
  - unfold has_attribute, attrs_of. rewrite E, A. intros Hf. rewrite (read_attr_eq d' h i n') by auto. unfold n'. cbn [x_attrs]. rewrite first_attribute_app.
    destruct (first_attribute (x_attrs n) (c_string name)); [discriminate|]. rewrite text_eqb_refl. now rewrite val_alloc_text.
  - intros old. rewrite (read_attr_eq d h i n), (read_attr_eq d' h i n') by auto. unfold n'. cbn [x_attrs]. rewrite first_attribute_app.
    destruct (first_attribute (x_attrs n) (c_string name)); [auto|discriminate].
  - intros other Ho. rewrite (read_attr_eq d h i n), (read_attr_eq d' h i n') by auto. unfold n'. cbn [x_attrs]. rewrite first_attribute_app.
    destruct (first_attribute (x_attrs n) (c_string other)); auto. destruct (text_eqb (c_string name) (c_string other)) eqn:T; auto.
    apply text_eqb_eq in T. congruence.
  - intros g Ig Vg Ng a. destruct (h_node g) as [j|] eqn:Hg; [|unfold valid in Vg; rewrite Hg in Vg; discriminate]. destruct (ok_valid _ _ _ _ _ W H Ig Hg) as (_ & m & Am & _).
    rewrite (read_attr_eq d g j m), (read_attr_eq d' g j m); auto; rewrite O; auto; congruence.
  - unfold get_value. destruct (h_node g) as [j|] eqn:Hg; auto. destruct (Nat.eq_dec j i) as [->|]; [now rewrite A', A|now rewrite O].
  - unfold get_name. destruct (h_node g) as [j|] eqn:Hg; auto. destruct (Nat.eq_dec j i) as [->|]; [now rewrite A', A|now rewrite O].
  - intros j. unfold kids_of. destruct (Nat.eq_dec j i) as [->|]; [now rewrite A', A|now rewrite O].
Qed.
Print Assumptions C59_add_attribute.

(** An enumeration written through a map is read back through the same map as an
    equal value; a value not in the map is refused. *)
Theorem C59_enumeration : forall (T : Type) (eqb : T -> T -> bool) d0 d hs h i name (val : T) vals,
  wf d0 -> history d0 d hs -> In h hs -> h_node h = Some i ->
  NoDup (map fst vals) -> (forall k v, In (k, v) vals -> c_string k = k) ->
  ((exists k v, In (k, v) vals /\ eqb val v = true) -> has_attribute d h name = Ret false ->
     exists d' v, add_attribute_enum eqb d h name val vals = Ret d' /\
       (do a <- get_attribute d' h name; attr_match a vals) = Ret v /\ eqb val v = true) /\
  ((forall k v, In (k, v) vals -> eqb val v = false) -> add_attribute_enum eqb d h name val vals = Throw).
Proof.
  intros T eqb d0 d hs h i name val vals W H I E ND Cs. split.
  - intros (k0 & v0 & In0 & Eq0) Hf.
    assert (K : exists k, key_of eqb val vals = Ret k /\ c_string k = k).
    { clear - In0 Eq0 Cs. induction vals as [|[k v] r IH]; simpl in *; [contradiction|]. destruct (eqb val v) eqn:X.
      - exists k. split; auto. eapply Cs. now left.
      - destruct In0 as [In0|In0]; [inversion In0; subst; congruence|]. destruct IH as (k' & A & B); auto. intros; eapply Cs; right; eauto. eauto. }
    destruct K as (k & Kk & Ck). destruct (key_match eqb val vals k ND Kk) as (v & Mv & Ev).
    destruct (C59_add_attribute d0 d hs h i name k W H I E) as (d' & R & _ & Rd & _).
    exists d', v. unfold add_attribute_enum. rewrite Kk. cbn [obind]. split; [exact R|]. split; auto.
    specialize (Rd Hf). unfold read_attr in Rd. destruct (get_attribute d' h name) as [a| | |]; cbn [obind] in *; try discriminate.
    unfold attr_match. rewrite Rd. cbn [obind]. now rewrite Ck.
  - intros N. unfold add_attribute_enum. replace (key_of eqb val vals) with (@Throw text); auto. clear - N. induction vals as [|[k v] r IH]; simpl; auto.
    rewrite (N k v) by now left. apply IH. intros; eapply N; right; eauto.
Qed.
Print Assumptions C59_enumeration.

(** A value assigned to a node is read back; nothing else changes. *)
Lemma set_value_spec d0 d hs h i v : wf d0 -> history d0 d hs -> In h hs -> h_node h = Some i ->
  exists d', set_value d h v = Ret d' /\ get_value d' h = Ret (c_string v) /\
  (forall g, In g hs -> valid g = true -> (h_node g <> Some i -> get_value d' g = get_value d g) /\ get_name d' g = get_name d g /\ forall a, read_attr d' g a = read_attr d g a) /\
  (forall j, kids_of d' j = kids_of d j).
Proof.
  intros W H I E. destruct (ok_valid _ _ _ _ _ W H I E) as (Wd & n & A & B).
  eexists. assert (R := eq_refl (set_value d h v)). unfold set_value at 2 in R. rewrite E in R.
  split; [exact R|]. set (d' := upd d i _) in *.
  set (n' := mk_node (x_name n) (val_alloc v) (x_attrs n) (x_parent n) (x_kids n)).
  assert (A' : nth_error d' i = Some n') by (unfold d'; rewrite nth_upd, Nat.eqb_refl, A; reflexivity).
  assert (O : forall j, j <> i -> nth_error d' j = nth_error d j) by (intros j Hj; unfold d'; rewrite nth_upd; destruct (Nat.eqb_spec i j); congruence).
  repeat split.
  - unfold get_value. rewrite E, A'. unfold n'. cbn [x_value]. now rewrite val_alloc_text.
  - unfold get_value. destruct (h_node g) as [j|] eqn:Hg; auto. intros N. rewrite O; [reflexivity|congruence].
  - unfold get_name. destruct (h_node g) as [j|] eqn:Hg; auto. destruct (Nat.eq_dec j i) as [->|]; [now rewrite A', A|now rewrite O].
  - intros a. destruct (h_node g) as [j|] eqn:Hg; [|unfold valid in H1; rewrite Hg in H1; discriminate]. destruct (ok_valid _ _ _ _ _ W H H0 Hg) as (_ & m & Am & _).
    destruct (Nat.eq_dec j i) as [->|].
    + rewrite (read_attr_eq d g i n), (read_attr_eq d' g i n'); auto.
    + rewrite (read_attr_eq d g j m), (read_attr_eq d' g j m); auto; now rewrite O.
  - intros j. unfold kids_of. destruct (Nat.eq_dec j i) as [->|]; [now rewrite A', A|now rewrite O].
Qed.
Theorem C59_assign : forall d0 d hs h i v, wf d0 -> history d0 d hs -> In h hs -> h_node h = Some i ->
  exists d', set_value d h v = Ret d' /\ get_value d' h = Ret (c_string v) /\
  (forall g, In g hs -> valid g = true -> (h_node g <> Some i -> get_value d' g = get_value d g) /\ get_name d' g = get_name d g /\ forall a, read_attr d' g a = read_attr d g a) /\
  (forall j, kids_of d' j = kids_of d j).
Proof. exact set_value_spec. Qed.
Print Assumptions C59_assign.

(** In a document the program built itself, += appends.  (Partial: see
    C59_append_refuted for a parsed document.) *)
Definition own (d : doc) : Prop := forall i n, nth_error d i = Some n -> v_size (x_value n) = length (v_mem (x_value n)) /\ c_string (v_mem (x_value n)) = v_mem (x_value n).
Lemma own_upd d i f : own d -> (forall n, x_value (f n) = x_value n \/ exists v, x_value (f n) = val_alloc v) -> own (upd d i f).
Proof.
  intros O F j n H. rewrite nth_upd in H. destruct (i =? j); [|eapply O; eauto]. destruct (nth_error d j) as [m|] eqn:E; [|discriminate]. inversion H; subst.
  destruct (F m) as [->|(v & ->)]; [eapply O; eauto|]. unfold val_alloc. cbn [v_size v_mem]. split; auto. apply c_string_idem.
Qed.
Lemma own_append d i name : own d -> own (fst (append_node d i name)).
Proof.
  intros O j n H. destruct (Nat.lt_ge_cases j (length d)) as [L|L].
  - rewrite append_other in H by auto. destruct (i =? j); [|eapply O; eauto]. destruct (nth_error d j) as [m|] eqn:E; [|discriminate]. inversion H; subst. cbn [x_value]. eapply O; eauto.
  - pose proof (lt_of _ _ _ H) as B. rewrite append_len in B. assert (j = length d) by lia. subst. rewrite append_new in H. inversion H; subst. split; reflexivity.
Qed.
Lemma own_set d h v d' : own d -> set_value d h v = Ret d' -> own d'.
Proof. intros O. unfold set_value. destruct (h_node h); [|discriminate]. intros H. inversion H. apply own_upd; auto. intros m. right. eexists. reflexivity. Qed.
Lemma own_history d hs : history doc_new d hs -> own d.
Proof.
  induction 1 as [|d hs name d' h H IH E|d hs name h H IH E|d hs h name d' h' H IH I E|d hs h name v d' H IH I E|d hs h v d' H IH I E|d hs h v d' H IH I E
    |d hs h name h' H IH I E|d hs h name h' H IH I E|d hs h h' H IH I E|d hs h h' H IH I E|d hs h h' H IH I E|d hs h h' H IH I E]; auto.
  - intros [|[|i]] n H; inversion H; subst; split; reflexivity.
  - apply (f_equal fst) in E. cbn [fst] in E. rewrite <- E. now apply own_append.
  - unfold add_node in E. destruct (h_node h) as [i|]; [|discriminate]. assert (E0 : append_node d i name = (d', h')) by congruence.
    apply (f_equal fst) in E0. cbn [fst] in E0. rewrite <- E0. now apply own_append.
  - unfold add_attribute in E. destruct (h_node h); [|discriminate]. inversion E. apply own_upd; auto.
  - eapply own_set; eauto.
  - unfold add_value in E. destruct (h_node h); [|discriminate]. destruct (nth_error d n); [|discriminate]. destruct (_ =? 0); eapply own_set; eauto.
Qed.
Lemma c_string_app a b : c_string a = a -> c_string (a ++ b) = a ++ c_string b.
Proof. induction a as [|c a IH]; simpl; auto. destruct (Ascii.eqb c zero); [discriminate|]. intros H. inversion H. f_equal. rewrite H1. apply IH. auto. Qed.
Theorem C59_append_partial : forall d hs h i v old, history doc_new d hs -> In h hs -> h_node h = Some i -> get_value d h = Ret old ->
  exists d', add_value d h v = Ret d' /\ get_value d' h = Ret (old ++ c_string v).
Proof.
  intros d hs h i v old H I E G. destruct (ok_valid _ _ _ _ _ wf_new H I E) as (Wd & n & A & B). destruct (own_history _ _ H _ _ A) as [S C].
  unfold get_value in G. rewrite E, A in G. inversion G as [G1]. unfold val_text in G1. rewrite S, firstn_all in G1.
  unfold add_value. rewrite E, A. destruct (Nat.eqb_spec (v_size (x_value n)) 0) as [Z|Z].
  - destruct (set_value_spec _ _ _ _ _ v wf_new H I E) as (d' & R & V & _). exists d'. split; [exact R|]. rewrite V. unfold val_text. rewrite Z. reflexivity.
  - destruct (set_value_spec _ _ _ _ _ (c_string (v_mem (x_value n)) ++ v) wf_new H I E) as (d' & R & V & _). exists d'. split; [exact R|]. rewrite V. rewrite C.
    rewrite c_string_app by auto. unfold val_text. now rewrite S, firstn_all.
Qed.
Print Assumptions C59_append_partial.

(** The parsed document <a>hi</a>: the value "hi" points into the text of the
    document, and += appends to all the text that follows. *)
Definition parsed_doc : doc :=
  [ mk_node [] (mk_val [] 0) [] None [1];
    mk_node (txt "a") (mk_val (txt "hi</a>") 2) [] (Some 0) [2];
    mk_node [] (mk_val (txt "hi</a>") 2) [] (Some 1) [] ].
Lemma wf_parsed : wf parsed_doc.
Proof.
  constructor.
  - eexists. split; reflexivity.
  - intros [|[|[|[|i]]]] n k H I; cbn in H; inversion H; subst; cbn in I; try contradiction; destruct I as [<-|[]]; eexists; split; reflexivity.
  - intros [|[|[|[|k]]]] m i H P; cbn in H; inversion H; subst; cbn in P; inversion P; subst; eexists; (split; [reflexivity|]); cbn; auto.
  - intros [|[|[|[|i]]]] n H; cbn in H; inversion H; subst; repeat constructor; cbn; auto.
  - intros [|[|[|[|i]]]] n H P; cbn in H; inversion H; subst; cbn in P; congruence.
  - intros [|[|[|[|i]]]] n k H I; cbn in H; inversion H; subst; cbn in I; try contradiction; destruct I as [<-|[]]; lia.
Qed.
Theorem C59_append_refuted : exists d0 hs h d', wf d0 /\ history d0 d0 hs /\ In h hs /\
  get_value d0 h = Ret (txt "hi") /\ add_value d0 h (txt "!") = Ret d' /\ get_value d' h = Ret (txt "hi</a>!").
Proof.
  exists parsed_doc, [root], root. eexists. split; [apply wf_parsed|]. split.
  { eapply hi_doc_get; [apply hi_start|]. instantiate (1 := txt "a"). reflexivity. }
  split; [now left|]. repeat split.
Qed.
Print Assumptions C59_append_refuted.

(** Exactly when += appends to the value: when the value is empty, or the C
    string that starts where the value is stored ends with the value. In a parsed
    document the latter never holds before the program assigns to the node, since
    the text of the value is followed by the rest of the document. *)
Lemma app_same_tail (A : Type) (a b c : list A) : a ++ c = b ++ c <-> a = b.
Proof. split; [apply app_inv_tail|congruence]. Qed.
Theorem C59_append_iff : forall d0 d hs h i n v old, wf d0 -> history d0 d hs -> In h hs -> h_node h = Some i ->
  nth_error d i = Some n -> get_value d h = Ret old ->
  exists d', add_value d h v = Ret d' /\
    (get_value d' h = Ret (old ++ c_string v) <-> old = [] \/ c_string (v_mem (x_value n)) = old).
Proof.
  intros d0 d hs h i n v old W H I E A G.
  unfold get_value in G. rewrite E, A in G. inversion G as [G1]. unfold val_text in G1.
  unfold add_value. rewrite E, A. destruct (Nat.eqb_spec (v_size (x_value n)) 0) as [Z|Z].
  - destruct (set_value_spec _ _ _ _ _ v W H I E) as (d' & R & V & _). exists d'. split; [exact R|]. rewrite V. unfold val_text. rewrite Z in *. cbn [firstn app]. tauto.
  - destruct (set_value_spec _ _ _ _ _ (c_string (v_mem (x_value n)) ++ v) W H I E) as (d' & R & V & _). exists d'. split; [exact R|]. rewrite V.
    rewrite c_string_app by apply c_string_idem. unfold val_text. split.
    + intros Q. right. injection Q as Q. now apply app_inv_tail in Q.
    + intros [O|O]; [|now rewrite O]. destruct (v_mem (x_value n)); [now rewrite O|]. destruct (v_size (x_value n)); [lia|discriminate].
Qed.
Print Assumptions C59_append_iff.

(** Once the program has assigned to a node, += appends to what was assigned,
    in any document. *)
Theorem C59_append_assigned : forall d0 d hs h i u v d1, wf d0 -> history d0 d hs -> In h hs -> h_node h = Some i ->
  set_value d h u = Ret d1 ->
  exists d2, add_value d1 h v = Ret d2 /\ get_value d2 h = Ret (c_string u ++ c_string v) /\
  forall w, exists d3, add_value d2 h w = Ret d3 /\ get_value d3 h = Ret (c_string u ++ c_string v ++ c_string w).
Proof.
  intros d0 d hs h i u v d1 W H I E S1.
  assert (P : forall dd hh x y dd', history d0 dd hh -> In h hh -> set_value dd h x = Ret dd' ->
    history d0 dd' hh /\ exists d2, add_value dd' h y = Ret d2 /\ get_value d2 h = Ret (c_string x ++ c_string y) /\
      exists z, set_value dd' h z = Ret d2 /\ c_string z = c_string x ++ c_string y).
  { intros dd hh x y dd' Hd Ih S. assert (Hd' : history d0 dd' hh) by (eapply hi_set; eauto). split; [exact Hd'|].
    destruct (ok_valid _ _ _ _ _ W Hd Ih E) as (Wd & n & A & B).
    unfold set_value in S. rewrite E in S. inversion S as [S0].
    assert (A' : exists n', nth_error dd' i = Some n' /\ x_value n' = val_alloc x).
    { rewrite <- S0, nth_upd, Nat.eqb_refl, A. eexists. split; reflexivity. }
    rewrite S0. destruct A' as (n' & A' & V). unfold add_value. rewrite E, A', V. unfold val_alloc. cbn [v_size v_mem].
    destruct (Nat.eqb_spec (length (c_string x)) 0) as [Z|Z].
    - destruct (set_value_spec _ _ _ _ _ y W Hd' Ih E) as (d2 & R & Q & _). exists d2. apply length_zero_iff_nil in Z. rewrite Z. split; [exact R|]. split; [exact Q|]. exists y. split; [exact R|reflexivity].
    - destruct (set_value_spec _ _ _ _ _ (c_string (c_string x) ++ y) W Hd' Ih E) as (d2 & R & Q & _). exists d2.
      assert (C : c_string (c_string (c_string x) ++ y) = c_string x ++ c_string y) by (rewrite !c_string_idem, c_string_app by apply c_string_idem; reflexivity).
      split; [exact R|]. split; [now rewrite Q, C|]. eexists. split; [exact R|exact C]. }
  destruct (P _ _ _ v _ H I S1) as (H1 & d2 & A2 & G2 & z & S2 & Cz). exists d2. split; [exact A2|]. split; [exact G2|]. intros w.
  destruct (P _ _ _ w _ H1 I S2) as (H2 & d3 & A3 & G3 & _). exists d3. split; [exact A3|]. rewrite G3, Cz. now rewrite app_assoc.
Qed.
Print Assumptions C59_append_assigned.

(** getAttribute with a std::string does not report a missing attribute. *)
Theorem C59_missing_attribute_refuted : exists d hs h a, history doc_new d hs /\ In h hs /\
  get_attribute d h (txt "c") = Throw /\ get_attribute_string d h (txt "c") = Ret a /\ attr_value a = Throw.
Proof. destruct C58_example_history as (hs & H & I). exists example_doc, hs, root. eexists. repeat split; auto. Qed.
Print Assumptions C59_missing_attribute_refuted.

Example C59_example :
  (do d <- add_attribute example_doc root (txt "size") (txt "3");
   do d2 <- add_attribute d root (txt "size") (txt "4"); read_attr d2 root (txt "size")) = Ret (txt "3") /\
  (do d <- add_attribute_enum Nat.eqb example_doc root (txt "k") 7 [(txt "five", 5); (txt "seven", 7)];
   do a <- get_attribute d root (txt "k"); attr_match a [(txt "five", 5); (txt "seven", 7)]) = Ret 7.
Proof. split; reflexivity. Qed.

(** *** C60 *)
Lemma newlines_mono data a b : a <= b -> newlines_before data a <= newlines_before data b.
Proof. induction 1; auto. pose proof (newlines_S data m). lia. Qed.
Lemma newlines_pos data i loc : i < loc -> is_newline data i -> 1 <= newlines_before data loc.
Proof.
  intros L N. apply at_newline in N. pose proof (newlines_S data i) as Sn. rewrite N in Sn. pose proof (newlines_mono data (S i) loc L). lia.
Qed.
Lemma newlines_one data loc : 0 < loc -> is_newline data 0 -> (forall i, 0 < i < loc -> ~ is_newline data i) -> newlines_before data loc = 1.
Proof.
  intros L N F. induction loc as [|[|m] IH]; [lia| |].
  - rewrite newlines_S. apply at_newline in N. now rewrite N.
  - rewrite newlines_S. replace (Ascii.eqb (at_ data (S m)) newline) with false; [rewrite IH; auto; [lia|intros; apply F; lia]|].
    symmetry. apply not_true_iff_false. rewrite at_newline. apply F. lia.
Qed.

(** The reported line is one more than the number of newlines before the error,
    the column counts from the beginning of that line, the excerpt is the text of
    that line around the error (40 characters to each side) and the caret is
    below the error. *)
Theorem C60_position_partial : forall data loc, loc <= length data ->
  ~ is_newline data loc -> ~ (is_newline data 0 /\ newlines_before data loc = 1) ->
  exists s e r, line_start data loc s /\ line_end data loc e /\ parse_error data loc = Ret r /\
    r_line r = 1 + newlines_before data loc /\ r_char r = loc - s /\
    r_before r = slice data (Nat.max s (loc - 40)) loc /\ r_after r = slice data loc (Nat.min e (loc + 40)) /\
    r_caret r = length (r_before r).
Proof.
  intros data loc L NN Bug. unfold parse_error. destruct (back_ok data loc) as (B1 & B2 & B3).
  destruct (forth_ok data (S (length data)) loc) as (F1 & F2 & F3); [auto|lia|].
  set (s0 := back data loc) in *. set (e := forth data loc (S (length data))) in *.
  set (s := if s0 =? 0 then s0 else S s0).
  assert (LS : line_start data loc s).
  { unfold s. destruct (Nat.eqb_spec s0 0) as [Z|Z].
    - split; [lia|]. split; auto. intros i Hi. destruct (Nat.eq_dec i s0) as [->|]; [|apply B3; lia]. rewrite Z in *. intros N0. apply Bug. split; auto.
      apply newlines_one; auto; [lia|]. intros j Hj. apply B3. lia.
    - destruct B2 as [B2|B2]; [lia|]. assert (s0 <> loc) by (intros X; apply NN; now rewrite <- X). split; [lia|]. split.
      + right. replace (S s0 - 1) with s0 by lia. auto.
      + intros i Hi. apply B3. lia. }
  pose proof LS as (LS1 & _). exists s, e. destruct (Nat.ltb_spec loc s) as [|_]; [lia|]. eexists. split; [exact LS|]. split; [split; auto|]. split; [reflexivity|].
  cbn [r_line r_char r_before r_after r_caret]. repeat split.
  - rewrite count_lines_ok. simpl. replace (newlines_before data 0) with 0 by reflexivity. lia.
  - f_equal. lia.
  - f_equal. lia.
  - unfold slice. rewrite firstn_length, skipn_length. lia.
Qed.
Print Assumptions C60_position_partial.

(** At a newline the report itself is undefined behaviour, whatever the rest of
    the document; "<" followed by a line break is such a document (rapidxml
    reports the missing name there). *)
Theorem C60_newline_refuted : forall data loc, 0 < loc -> is_newline data loc -> parse_error data loc = UB.
Proof.
  intros data loc P N. unfold parse_error. destruct loc as [|q]; [lia|]. cbn [back]. apply at_newline in N. rewrite N. cbn [Nat.eqb].
  destruct (Nat.ltb_spec (S q) (S (S q))); [reflexivity|lia].
Qed.
Print Assumptions C60_newline_refuted.
Definition nl := [newline].
(** A document beginning with a line break: an error in its second line is
    reported one column too far right. *)
Theorem C60_first_line_refuted : exists data loc r s, loc <= length data /\ ~ is_newline data loc /\ parse_error data loc = Ret r /\ line_start data loc s /\ r_char r <> loc - s.
Proof.
  exists (nl ++ txt "x<"), 2. eexists. exists 1. split; [simpl; lia|]. split; [unfold is_newline; simpl; discriminate|]. split; [reflexivity|]. split.
  - split; [lia|]. split; [right; reflexivity|]. intros i Hi. assert (i = 1) by lia. subst. unfold is_newline. simpl. discriminate.
  - simpl. lia.
Qed.
Print Assumptions C60_first_line_refuted.
Example C60_example : parse_error (txt "<a>" ++ nl ++ txt "  <b" ++ nl ++ txt "</a>") 8 = UB /\
  exists r, parse_error (txt "<a>" ++ nl ++ txt "  <b%" ++ nl ++ txt "</a>") 8 = Ret r /\ r_line r = 2 /\ r_char r = 4 /\ r_before r = txt "  <b" /\ r_after r = txt "%".
Proof. split; [reflexivity|]. eexists. repeat split. Qed.
(** When the report is made: unless the error is at a newline that is not the first
    character of the document. *)
Theorem C60_defined_iff : forall data loc, loc <= length data ->
  ((exists r, parse_error data loc = Ret r) <-> (loc = 0 \/ ~ is_newline data loc)) /\
  (parse_error data loc = UB <-> (0 < loc /\ is_newline data loc)).
Proof.
  intros data loc L. assert (D : loc = 0 \/ ~ is_newline data loc -> exists r, parse_error data loc = Ret r).
  { intros H. unfold parse_error. destruct (back_ok data loc) as (B1 & B2 & B3). set (s0 := back data loc) in *.
    destruct (Nat.eqb_spec s0 0) as [Z|Z]; [rewrite Z; destruct (Nat.ltb_spec loc 0); [lia|eauto]|].
    destruct H as [H|H]; [lia|]. destruct B2 as [B2|B2]; [lia|]. assert (s0 <> loc) by (intros X; apply H; rewrite <- X; exact B2).
    destruct (Nat.ltb_spec loc (S s0)); [lia|]. eauto. }
  assert (N : is_newline data loc \/ ~ is_newline data loc) by (rewrite <- at_newline; destruct (Ascii.eqb _ _); auto).
  assert (C : 0 < loc \/ loc = 0) by lia. pose proof (C60_newline_refuted data loc) as U. split; split.
  - intros (r & E). destruct C as [C|C], N as [N|N]; auto. rewrite (U C N) in E. discriminate.
  - exact D.
  - intros E. destruct C as [C|C], N as [N|N]; auto; destruct D as (r & Hr); auto; congruence.
  - intros [H K]. auto.
Qed.
Print Assumptions C60_defined_iff.
(** When a report is made its line number is right, and its column is right unless
    the document begins with a newline and the error is in the second line; there it
    is one too large. *)
Theorem C60_column_iff : forall data loc r s, loc <= length data -> parse_error data loc = Ret r -> line_start data loc s ->
  r_line r = 1 + newlines_before data loc /\
  (r_char r = loc - s <-> ~ (is_newline data 0 /\ newlines_before data loc = 1)) /\
  (is_newline data 0 /\ newlines_before data loc = 1 -> r_char r = loc - s + 1).
Proof.
  intros data loc r s L E LS.
  assert (LN : r_line r = 1 + newlines_before data loc).
  { unfold parse_error in E. destruct (_ <? _)%nat; [discriminate|]. injection E as <-. cbn [r_line]. rewrite count_lines_ok. simpl.
    replace (newlines_before data 0) with 0 by reflexivity. lia. }
  split; [exact LN|].
  assert (Bad : is_newline data 0 /\ newlines_before data loc = 1 -> s = 1 /\ r_char r = loc).
  { intros [N0 N1]. assert (P : 0 < loc) by (destruct loc; [discriminate N1|lia]).
    assert (F : forall i, 0 < i < loc -> ~ is_newline data i).
    { intros i Hi Ni. assert (A : newlines_before data 1 = 1) by (rewrite newlines_S; apply at_newline in N0; now rewrite N0).
      assert (B : newlines_before data (S i) = newlines_before data i + 1) by (rewrite newlines_S; apply at_newline in Ni; now rewrite Ni).
      pose proof (newlines_mono data 1 i ltac:(lia)). pose proof (newlines_mono data (S i) loc ltac:(lia)). lia. }
    destruct LS as (S1 & S2 & S3).
    assert (Es : s = 1). { destruct s as [|[|s]]; [destruct (S3 0); [lia|exact N0]|reflexivity|]. destruct S2 as [S2|S2]; [lia|]. exfalso. apply (F (S s)); [lia|]. exact S2. }
    split; [exact Es|]. unfold parse_error in E. destruct (back_ok data loc) as (B1 & B2 & B3). set (s0 := back data loc) in *.
    destruct (Nat.eqb_spec s0 0) as [Z|Z]; [rewrite Z in E; destruct (_ <? _)%nat; [discriminate|]; injection E as <-; cbn [r_char]; lia|].
    destruct B2 as [B2|B2]; [lia|]. exfalso. assert (s0 = loc) as X by (destruct (Nat.eq_dec s0 loc); auto; exfalso; apply (F s0); [lia|exact B2]).
    rewrite X in *. destruct (Nat.ltb_spec loc (S loc)); [discriminate|lia]. }
  split; [split|].
  - intros H B. destruct (Bad B) as [-> Hc]. destruct B as [_ N1]. assert (0 < loc) by (destruct loc; [discriminate N1|lia]). lia.
  - intros B. assert (N : is_newline data loc \/ ~ is_newline data loc) by (rewrite <- at_newline; destruct (Ascii.eqb _ _); auto).
    assert (C : 0 < loc \/ loc = 0) by lia. destruct N as [N|N].
    + destruct C as [C|C]; [rewrite (C60_newline_refuted data loc C N) in E; discriminate|]. subst loc. unfold parse_error in E. cbn in E.
      injection E as <-. reflexivity.
    + destruct (C60_position_partial data loc L N B) as (s' & e & r' & LS' & _ & E' & _ & Hc & _). rewrite E in E'. injection E' as <-.
      rewrite Hc. f_equal. destruct LS as (A1 & A2 & A3), LS' as (A1' & A2' & A3').
      destruct (Nat.lt_trichotomy s s') as [X|[X|X]]; [|auto|]; exfalso.
      * destruct A2' as [A2'|A2']; [lia|]. apply (A3 (s' - 1)); [lia|exact A2'].
      * destruct A2 as [A2|A2]; [lia|]. apply (A3' (s - 1)); [lia|exact A2].
  - intros B. destruct (Bad B) as [-> Hc]. destruct B as [_ N1]. assert (0 < loc) by (destruct loc; [discriminate N1|lia]). lia.
Qed.
Print Assumptions C60_column_iff.
