(** C26, C27: array addressing and elementwise operations. *)
From Coq Require Import List Arith Lia Bool.
From Verif Require Import Outcome Num ArrayModel.
Import ListNotations.
Open Scope nat_scope.

(* ---------------------------------------------------------- specification *)
(** number of coordinates of a box of the given dimensions *)
Fixpoint volume (ds : list nat) : nat := match ds with [] => 1 | n :: t => n * volume t end.
(** coordinates inside the box *)
Definition in_box (ds c : list nat) : Prop := Forall2 lt c ds.
(** row-major position: the last coordinate varies fastest *)
Fixpoint row_major (ds c : list nat) : nat :=
  match ds, c with n :: ds', x :: c' => x * volume ds' + row_major ds' c' | _, _ => 0 end.
(** lexicographic order *)
Fixpoint lex_lt (c c' : list nat) : Prop :=
  match c, c' with x :: t, y :: t' => x < y \/ (x = y /\ lex_lt t t') | _, _ => False end.
(** an array whose storage has exactly one element per coordinate *)
Definition well_formed {T} (a : arr T) : Prop :=
  length (store a) = match dims a with [] => 0 | ds => volume ds end.

(* ---------------------------------------------------------- proofs *)
Lemma index_loop_ok ds : forall acc c, length c = length ds ->
  index_loop acc ds c = Ret (acc * volume ds + row_major ds c).
Proof.
  induction ds as [|n t IH]; intros acc [|x c] H; cbn [length index_loop volume row_major] in *; try discriminate.
  - f_equal. lia.
  - rewrite IH by lia. f_equal. nia.
Qed.
Lemma row_major_lt ds : forall c, in_box ds c -> row_major ds c < volume ds.
Proof.
  induction ds as [|n t IH]; intros c H; inversion H; subst; cbn [row_major volume]; [lia|].
  specialize (IH _ H4). nia.
Qed.
Lemma row_major_inj ds : forall c c', in_box ds c -> in_box ds c' -> row_major ds c = row_major ds c' -> c = c'.
Proof.
  induction ds as [|n t IH]; intros c c' H H' E; inversion H; inversion H'; subst; [reflexivity|].
  cbn [row_major] in E. pose proof (row_major_lt t _ H4). pose proof (row_major_lt t _ H9).
  assert (x = x0) by nia. subst. f_equal. apply (IH _ _ H4 H9). nia.
Qed.
Lemma row_major_onto ds : forall i, i < volume ds -> exists c, in_box ds c /\ row_major ds c = i.
Proof.
  induction ds as [|n t IH]; intros i Hi; cbn [volume] in Hi.
  - exists []. split; [constructor|cbn; lia].
  - assert (Hv : 0 < volume t) by nia. destruct (IH (i mod volume t)) as (c & Hc & E); [apply Nat.mod_upper_bound; lia|].
    exists ((i / volume t) :: c). split.
    + constructor; [apply Nat.div_lt_upper_bound; lia|exact Hc].
    + cbn [row_major]. rewrite E. rewrite (Nat.div_mod i (volume t)) at 3 by lia. lia.
Qed.
Lemma row_major_lex ds : forall c c', in_box ds c -> in_box ds c' -> (row_major ds c < row_major ds c' <-> lex_lt c c').
Proof.
  induction ds as [|n t IH]; intros c c' H H'; inversion H; inversion H'; subst; cbn [row_major lex_lt]; [lia|].
  pose proof (row_major_lt t _ H4). pose proof (row_major_lt t _ H9). rewrite <- (IH _ _ H4 H9). split; intros L.
  - destruct (lt_eq_lt_dec x x0) as [[L1|L1]|L1]; [left; exact L1|right; subst; nia|exfalso; nia].
  - destruct L as [L|[-> L]]; nia.
Qed.
Lemma store_size_volume {T} (a : arr T) : store_size a = match dims a with [] => 0 | ds => volume ds end.
Proof.
  unfold store_size. destruct (dims a) as [|n t]; [reflexivity|]. cbn [length Nat.ltb Nat.leb].
  assert (G : forall l s, fold_left (fun s n => s * n) l s = s * volume l).
  { induction l as [|x l IH]; intros s; cbn [fold_left volume]; [lia|]. rewrite IH. lia. }
  rewrite G. lia.
Qed.
Lemma in_box_length ds c : in_box ds c -> length c = length ds.
Proof. induction 1; simpl; auto. Qed.
Lemma nth_error_upd {T} (v : T) : forall l i j, i < length l ->
  nth_error (upd l i v) j = if Nat.eqb i j then Some v else nth_error l j.
Proof.
  induction l as [|a l IH]; intros [|i] [|j] H; cbn [length upd nth_error Nat.eqb] in *; try lia; try reflexivity. apply IH. lia.
Qed.
Lemma len_upd {T} (v : T) : forall l i, length (upd l i v) = length l.
Proof. induction l as [|a l IH]; intros [|i]; simpl; auto. Qed.

(** C26: the conversion is the row-major position; in bounds, injective, onto the
    storage, and increasing in lexicographic order *)
Theorem C26_addressing : forall (T : Type) (a : arr T), dims a <> [] ->
  (forall c, in_box (dims a) c -> coords_to_index a c = Ret (row_major (dims a) c) /\ row_major (dims a) c < store_size a) /\
  (forall c c', in_box (dims a) c -> in_box (dims a) c' -> coords_to_index a c = coords_to_index a c' -> c = c') /\
  (forall i, i < store_size a -> exists c, in_box (dims a) c /\ coords_to_index a c = Ret i) /\
  (forall c c' i i', in_box (dims a) c -> in_box (dims a) c' -> coords_to_index a c = Ret i -> coords_to_index a c' = Ret i' ->
     (i < i' <-> lex_lt c c')).
Proof.
  intros T a Hd. rewrite store_size_volume.
  assert (G : forall c, in_box (dims a) c -> coords_to_index a c = Ret (row_major (dims a) c)).
  { intros c Hc. unfold coords_to_index. rewrite index_loop_ok by (apply in_box_length, Hc). f_equal. }
  assert (V : match dims a with [] => 0 | ds => volume ds end = volume (dims a)) by (destruct (dims a); [congruence|reflexivity]).
  rewrite V. split; [|split; [|split]].
  - intros c Hc. split; [apply G, Hc|apply row_major_lt, Hc].
  - intros c c' Hc Hc' E. rewrite !G in E by assumption. injection E. apply row_major_inj; assumption.
  - intros i Hi. destruct (row_major_onto _ i Hi) as (c & Hc & <-). exists c. split; [exact Hc|apply G, Hc].
  - intros c c' i i' Hc Hc' E E'. rewrite G in E, E' by assumption. injection E as <-. injection E' as <-. apply row_major_lex; assumption.
Qed.
Print Assumptions C26_addressing.

(** reading back a written element: only the written coordinate changes *)
Theorem C26_read_write : forall (T : Type) (a : arr T) c v, well_formed a -> dims a <> [] -> in_box (dims a) c ->
  exists a', arr_set a c v = Ret a' /\ dims a' = dims a /\ well_formed a' /\
    forall c', in_box (dims a) c' ->
      (c' = c -> arr_at a' c' = Ret v) /\ (c' <> c -> arr_at a' c' = arr_at a c') /\ exists x, arr_at a c' = Ret x.
Proof.
  intros T a c v HW Hd Hc. destruct (C26_addressing T a Hd) as (H1 & H2 & _ & _).
  destruct (H1 c Hc) as [E1 L1]. rewrite store_size_volume in *. unfold well_formed in HW. rewrite <- HW in *.
  unfold arr_set. rewrite E1. cbn [obind]. destruct (Nat.ltb_spec (row_major (dims a) c) (length (store a))); [|lia].
  eexists. split; [reflexivity|]. split; [reflexivity|]. split; [unfold well_formed; cbn [dims store]; rewrite len_upd; exact HW|].
  intros c' Hc'. destruct (H1 c' Hc') as [E' L']. unfold arr_at.
  replace (coords_to_index (Arr (dims a) (upd (store a) (row_major (dims a) c) v)) c') with (coords_to_index a c') by reflexivity.
  rewrite E'. cbn [obind store]. unfold vread. rewrite nth_error_upd by lia.
  split; [|split].
  - intros ->. rewrite Nat.eqb_refl. reflexivity.
  - intros Hne. destruct (Nat.eqb_spec (row_major (dims a) c) (row_major (dims a) c')) as [E|E]; [|reflexivity].
    exfalso. apply Hne. symmetry. apply (row_major_inj _ _ _ Hc Hc' E).
  - destruct (nth_error (store a) (row_major (dims a) c')) eqn:En; [eexists; reflexivity|]. apply nth_error_None in En. lia.
Qed.
Print Assumptions C26_read_write.

Lemma chain_ok rank : forall is coords idx, length coords = rank -> idx + length is <= rank ->
  chain rank coords idx is = Ret (firstn idx coords ++ is ++ skipn (idx + length is) coords, idx + length is).
Proof.
  induction is as [|v t IH]; intros coords idx HL Hi; cbn [chain length] in *.
  - rewrite Nat.add_0_r. cbn [app]. rewrite firstn_skipn. reflexivity.
  - destruct (Nat.eqb_spec idx rank); [lia|]. rewrite IH by (try rewrite len_upd; lia).
    replace (S idx + length t) with (idx + S (length t)) by lia. f_equal. f_equal.
    assert (F1 : forall l i, i < length l -> firstn (S i) (upd l i v) = firstn i l ++ [v]).
    { clear. induction l as [|a l IHl]; intros i Hi; cbn [length] in Hi; [lia|]. destruct i; [reflexivity|].
      change (a :: firstn (S i) (upd l i v) = a :: (firstn i l ++ [v])). rewrite IHl by lia. reflexivity. }
    assert (F2 : forall l i j, i < j -> skipn j (upd l i v) = skipn j l).
    { clear. induction l as [|a l IHl]; intros i j Hij; [reflexivity|]. destruct i, j; try lia; cbn [upd skipn]; [reflexivity|]. apply IHl. lia. }
    rewrite F1 by lia. rewrite F2 by lia. rewrite <- app_assoc. reflexivity.
Qed.
Lemma chain_too_many rank : forall is coords idx, idx <= rank -> rank < idx + length is -> chain rank coords idx is = Throw.
Proof.
  induction is as [|v t IH]; intros coords idx H1 H2; cbn [chain length] in *; [lia|].
  destruct (Nat.eqb_spec idx rank); [reflexivity|]. apply IH; lia.
Qed.

(** a[i][j]...: with exactly one index per dimension it is the element, otherwise it
    raises *)
Theorem C26_chained : forall (T : Type) (a : arr T) (is : list nat) (v : T),
  (length is = length (dims a) -> arr_chain_read a is = arr_at a is /\ arr_chain_write a is v = arr_set a is v) /\
  (length is <> length (dims a) -> arr_chain_read a is = Throw /\ arr_chain_write a is v = Throw).
Proof.
  intros T a is v. unfold arr_chain_read, arr_chain_write. split; intros H.
  - rewrite chain_ok by (try rewrite repeat_length; lia). cbn [obind]. rewrite Nat.add_0_l, H, Nat.eqb_refl.
    cbn [firstn app]. rewrite skipn_all2 by (rewrite repeat_length; lia). rewrite app_nil_r. auto.
  - destruct (le_lt_dec (length is) (length (dims a))).
    + rewrite chain_ok by (try rewrite repeat_length; lia). cbn [obind]. destruct (Nat.eqb_spec (0 + length is) (length (dims a))); [lia|]. auto.
    + rewrite chain_too_many by lia. auto.
Qed.
Print Assumptions C26_chained.

(** resize and push_back keep one element per coordinate; push_back appends *)
Theorem C26_resize : forall (T : Type) (dflt : T) (a : arr T) ds,
  well_formed (arr_resize dflt a ds) /\ dims (arr_resize dflt a ds) = ds /\
  forall i, i < store_size (arr_resize dflt a ds) ->
    nth_error (store (arr_resize dflt a ds)) i = Some (nth i (store a) dflt).
Proof.
  intros T dflt a ds.
  assert (HL : forall l n, length (vresize dflt l n) = n).
  { intros l n. unfold vresize. rewrite app_length, firstn_length, repeat_length. lia. }
  unfold arr_resize. split; [|split; [reflexivity|]].
  - unfold well_formed. cbn [store dims]. rewrite HL, store_size_volume. reflexivity.
  - intros i Hi. cbn [store]. rewrite store_size_volume in Hi. cbn [dims] in Hi.
    rewrite store_size_volume. cbn [dims]. match type of Hi with i < ?m => set (n := m) in * end.
    unfold vresize. destruct (le_lt_dec (length (store a)) i) as [H|H].
    + rewrite nth_error_app2 by (rewrite firstn_length; lia). rewrite nth_overflow by exact H.
      rewrite firstn_length. assert (E : i - Nat.min n (length (store a)) < n - length (store a)) by lia.
      rewrite (nth_error_nth' _ dflt) by (rewrite repeat_length; exact E). f_equal. apply nth_repeat.
    + rewrite nth_error_app1 by (rewrite firstn_length; lia).
      rewrite (nth_error_nth' _ dflt) by (rewrite firstn_length; lia). f_equal.
      rewrite <- (firstn_skipn n (store a)) at 2. rewrite app_nth1 by (rewrite firstn_length; lia). reflexivity.
Qed.
Print Assumptions C26_resize.

(** size() is the number of elements held, the number of valid coordinates; empty()
    tells whether it is 0: for rank 0, or if a dimension is 0. *)
Theorem C26_size : forall (T : Type) (a : arr T), well_formed a ->
  arr_size a = length (store a) /\
  (arr_empty a = true <-> store a = []) /\
  (arr_empty a = true <-> dims a = [] \/ In 0 (dims a)) /\
  (arr_empty a = false <-> exists c, dims a <> [] /\ in_box (dims a) c).
Proof.
  intros T a W. unfold arr_size, arr_empty. rewrite store_size_volume. unfold well_formed in W. rewrite <- W.
  assert (Z : forall ds, volume ds = 0 <-> In 0 ds).
  { induction ds as [|n ds IH]; cbn [volume fold_right In]; [split; [discriminate|tauto]|].
    rewrite Nat.eq_mul_0. fold (volume ds). rewrite IH. split; (intros [H|H]; [left; auto|auto]). }
  assert (E0 : length (store a) = 0 <-> dims a = [] \/ In 0 (dims a)).
  { rewrite W. destruct (dims a) as [|n ds]; [tauto|]. rewrite (Z (n :: ds)). split; [auto|intros [H|H]; [discriminate|exact H]]. }
  split; [reflexivity|]. split; [rewrite Nat.eqb_eq; apply length_zero_iff_nil|]. split; [rewrite Nat.eqb_eq; exact E0|].
  rewrite Nat.eqb_neq. split.
  - intros N. assert (D : dims a <> []) by (intros D; apply N, E0; auto).
    destruct (C26_addressing T a D) as (_ & _ & S & _). destruct (S 0) as (c & Hc & _); [|exists c; auto].
    rewrite store_size_volume, <- W. lia.
  - intros (c & D & Hc) E. apply E0 in E as [E|E]; [auto|]. revert c Hc E. generalize (dims a). clear.
    induction l as [|n l IH]; intros c Hc E; [destruct E|]. inversion Hc; subst. destruct E as [-> |E]; [lia|]. eauto.
Qed.
Print Assumptions C26_size.

Theorem C26_push_back : forall (T : Type) (a : arr T) v, well_formed a ->
  match dims a with
  | [] | [_] => exists a', arr_push_back a v = Ret a' /\ well_formed a' /\ store a' = store a ++ [v] /\ dims a' = [length (store a ++ [v])]
  | _ => arr_push_back a v = Throw
  end.
Proof.
  intros T [ds s] v HW. unfold well_formed, arr_push_back in *. cbn [dims store] in *.
  destruct ds as [|n [|m t]]; [| |reflexivity]; eexists; (split; [reflexivity|]); cbn [dims store volume] in *;
    rewrite app_length; cbn [length]; (split; [lia|]); (split; [reflexivity|]); f_equal; lia.
Qed.
Print Assumptions C26_push_back.

(** A new array has the dimensions it was asked for and the default value at every
    coordinate; one built from a row-major list of the right number of values has
    at each coordinate the value at its row-major position. *)
Theorem C26_construct : forall (T : Type) (dflt : T) (ds : list nat) (vals : list T), ds <> [] ->
  (dims (arr_of_dims dflt ds) = ds /\ well_formed (arr_of_dims dflt ds) /\
   forall c, in_box ds c -> arr_at (arr_of_dims dflt ds) c = Ret dflt) /\
  (length vals = volume ds ->
   dims (arr_of_values ds vals) = ds /\ well_formed (arr_of_values ds vals) /\
   forall c, in_box ds c -> exists v, nth_error vals (row_major ds c) = Some v /\ arr_at (arr_of_values ds vals) c = Ret v).
Proof.
  intros T dflt ds vals N.
  assert (WF : forall a : arr T, dims a = ds -> (well_formed a <-> length (store a) = volume ds)).
  { intros a D. unfold well_formed. rewrite D. destruct ds; [congruence|reflexivity]. }
  assert (Rd : forall a : arr T, dims a = ds -> forall c, in_box ds c -> arr_at a c = vread (store a) (row_major ds c)).
  { intros a D c Hc. assert (Nd : dims a <> []) by congruence. destruct (C26_addressing T a Nd) as (H & _). rewrite <- D in Hc. destruct (H c Hc) as [E _].
    unfold arr_at. rewrite E, D. reflexivity. }
  split.
  - destruct (C26_resize T dflt arr_default ds) as (W & D & H). fold (arr_of_dims dflt ds) in W, D, H. split; [exact D|]. split; [exact W|].
    intros c Hc. rewrite (Rd _ D c Hc). unfold vread. rewrite H; [destruct (row_major ds c); reflexivity|].
    rewrite store_size_volume, D. destruct ds; [congruence|]. now apply row_major_lt.
  - intros L. split; [reflexivity|]. split; [now apply WF|]. intros c Hc. rewrite (Rd (arr_of_values ds vals) eq_refl c Hc). unfold vread. cbn [store arr_of_values].
    destruct (nth_error vals (row_major ds c)) eqn:E; [eauto|]. apply nth_error_None in E. pose proof (row_major_lt ds c Hc). lia.
Qed.
Print Assumptions C26_construct.

(** the constructor taking dimensions and values does not check their number *)
Theorem C26_constructor_refuted : exists (d : list nat) (vals : list nat) c,
  in_box d c /\ ~ well_formed (arr_of_values d vals) /\ arr_at (arr_of_values d vals) c = UB.
Proof.
  exists [2; 2], [1; 2; 3], [1; 1]. split; [repeat constructor|]. split; [unfold well_formed; simpl; lia|reflexivity].
Qed.

Example C26_example : coords_to_index (arr_of_dims 0 [2; 3; 4]) [1; 2; 3] = Ret 23 /\ in_box [2; 3; 4] [1; 2; 3] /\
  well_formed (arr_of_dims 0 [2; 3; 4]).
Proof. split; [reflexivity|]. split; [repeat constructor|reflexivity]. Qed.

(* ------------------------------------------------------------------ C27 *)
Lemma zip_loop_ok {A B C} (f : A -> B -> C) l r : forall n i, i + n <= length l -> i + n <= length r ->
  exists s, zip_loop f n i l r = Ret s /\ length s = n /\
    forall j x y, j < n -> nth_error l (i + j) = Some x -> nth_error r (i + j) = Some y -> nth_error s j = Some (f x y).
Proof.
  induction n as [|n IH]; intros i Hl Hr; cbn [zip_loop].
  - exists []. repeat split; auto. intros; lia.
  - destruct (nth_error l i) as [x|] eqn:El; [|apply nth_error_None in El; lia].
    destruct (nth_error r i) as [y|] eqn:Er; [|apply nth_error_None in Er; lia].
    unfold vread. rewrite El, Er. cbn [obind]. destruct (IH (S i)) as (s & E & HL & H); [lia|lia|].
    rewrite E. cbn [obind]. exists (f x y :: s). split; [reflexivity|]. split; [cbn [length]; lia|].
    intros [|j] x' y' Hj E1 E2.
    + rewrite Nat.add_0_r in E1, E2. cbn [nth_error]. congruence.
    + cbn [nth_error]. apply H; [lia| |]; rewrite <- Nat.add_succ_comm in *; assumption.
Qed.
Lemma map_loop_ok {A C} (f : A -> C) l : forall n i, i + n <= length l -> map_loop f n i l = Ret (map f (firstn n (skipn i l))).
Proof.
  induction n as [|n IH]; intros i Hl; cbn [map_loop]; [reflexivity|].
  destruct (nth_error l i) as [x|] eqn:El; [|apply nth_error_None in El; lia].
  unfold vread. rewrite El. cbn [obind]. rewrite IH by lia. cbn [obind]. f_equal.
  apply nth_error_split in El. destruct El as (l1 & l2 & -> & <-).
  assert (E1 : skipn (length l1) (l1 ++ x :: l2) = x :: l2) by (rewrite skipn_app, skipn_all, Nat.sub_diag; reflexivity).
  assert (E2 : skipn (S (length l1)) (l1 ++ x :: l2) = l2).
  { rewrite skipn_app. rewrite skipn_all2 by lia. replace (S (length l1) - length l1) with 1 by lia. reflexivity. }
  rewrite E1, E2. reflexivity.
Qed.

(** arrays of equal dimensions: coordinate by coordinate; unequal: exception *)
Theorem C27_arrays : forall (A B C : Type) (f : A -> B -> C) (l : arr A) (r : arr B), well_formed l -> well_formed r ->
  (dims l = dims r -> exists o, elementwiseLR f l r = Ret o /\ dims o = dims l /\ well_formed o /\
     forall c x y, dims l <> [] -> in_box (dims l) c -> arr_at l c = Ret x -> arr_at r c = Ret y -> arr_at o c = Ret (f x y)) /\
  (dims l <> dims r -> elementwiseLR f l r = Throw).
Proof.
  intros A B C f l r Hl Hr. unfold elementwiseLR, dims_eqb. split; intros E.
  - destruct (list_eq_dec Nat.eq_dec (dims l) (dims r)); [|contradiction].
    unfold well_formed in *. pose proof (store_size_volume l) as S1.
    destruct (zip_loop_ok f (store l) (store r) (store_size l) 0) as (s & Es & HL & H); [lia| rewrite S1, E; lia|].
    rewrite Es. cbn [obind]. eexists. split; [reflexivity|]. cbn [dims store]. split; [reflexivity|]. split; [lia|].
    intros c x y Hd Hc. destruct (C26_addressing A l Hd) as (H1 & _). destruct (H1 c Hc) as [Ei Li].
    unfold arr_at. replace (coords_to_index {| dims := dims l; store := s |} c) with (coords_to_index l c) by reflexivity.
    replace (coords_to_index r c) with (coords_to_index l c) by (unfold coords_to_index; rewrite E; reflexivity).
    rewrite Ei. cbn [obind store]. unfold vread.
    destruct (nth_error (store l) (row_major (dims l) c)) as [x0|] eqn:E1; [|discriminate]. intros [= <-].
    destruct (nth_error (store r) (row_major (dims l) c)) as [y0|] eqn:E2; [|discriminate]. intros [= <-].
    rewrite (H _ _ _ Li E1 E2). reflexivity.
  - destruct (list_eq_dec Nat.eq_dec (dims l) (dims r)); [contradiction|reflexivity].
Qed.
Print Assumptions C27_arrays.

(** a scalar on either side combines with every element *)
Theorem C27_scalar : forall (A B C : Type) (f : A -> B -> C) (g : B -> A -> C) (l : arr A) (r : B), well_formed l ->
  elementwiseL f l r = Ret (Arr (dims l) (map (fun x => f x r) (store l))) /\
  elementwiseR g r l = Ret (Arr (dims l) (map (fun x => g r x) (store l))).
Proof.
  intros A B C f g l r Hl. unfold elementwiseL, elementwiseR. unfold well_formed in Hl. rewrite <- store_size_volume in Hl.
  rewrite !map_loop_ok by lia. cbn [obind skipn]. rewrite <- Hl, firstn_all. auto.
Qed.
Print Assumptions C27_scalar.

Example C27_example :
  elementwiseLR Nat.add (Arr [2; 2] [1; 2; 3; 4]) (Arr [2; 2] [10; 20; 30; 40]) = Ret (Arr [2; 2] [11; 22; 33; 44]) /\
  elementwiseLR Nat.add (Arr [2; 2] [1; 2; 3; 4]) (Arr [4] [10; 20; 30; 40]) = Throw.
Proof. split; reflexivity. Qed.
