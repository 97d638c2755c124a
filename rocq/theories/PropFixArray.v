(** C79: arrays of fixed capacity and linear arrays. *)
From Coq Require Import List Arith Lia Bool String.
From Verif Require Import Outcome Num ArrayModel PropArray FixArrayModel.
Import ListNotations.
Open Scope string_scope.
Open Scope nat_scope.

(* ---------------------------------------------------------- specification *)
(** What a user does to an array. *)
Inductive action (T : Type) := Push (v : T) | Assign (i : nat) (v : T) | Resize (n : nat).
Arguments Push {T}. Arguments Assign {T}. Arguments Resize {T}.

(** The contents of an array as a number of elements and the element at each place
    ([None]: not initialised).  A capacity [None] means growing storage. *)
Record contents (T : Type) := Contents { count : nat; element : nat -> option T }.
Arguments Contents {T}. Arguments count {T}. Arguments element {T}.
Definition fits (cap : option nat) (n : nat) : Prop := match cap with Some c => n <= c | None => True end.
Definition fits_dec cap n : {fits cap n} + {~ fits cap n} :=
  match cap as c return {fits c n} + {~ fits c n} with Some c => le_dec n c | None => left I end.
(** What each action is supposed to do: an action that does not fit is refused and changes
    nothing; a resized array keeps its elements, new places of growing storage have the
    default value, new places of fixed storage what was last there. *)
Definition perform {T} (cap : option nat) (dflt : T) (c : contents T) (a : action T) : contents T :=
  match a with
  | Push v => if fits_dec cap (count c + 1)
              then Contents (count c + 1) (fun i => if Nat.eq_dec i (count c) then Some v else element c i)
              else c
  | Assign i v => Contents (count c) (fun j => if Nat.eq_dec j i then Some v else element c j)
  | Resize n => if fits_dec cap n
                then Contents n (fun i => match cap with
                                          | Some _ => element c i
                                          | None => if lt_dec i (count c) then element c i else Some dflt
                                          end)
                else c
  end.
Definition new {T} (fresh : option T) : contents T := Contents 0 (fun _ => fresh).
Fixpoint after {T} (cap : option nat) (dflt : T) (c : contents T) (h : list (action T)) : contents T :=
  match h with [] => c | a :: h' => after cap dflt (perform cap dflt c a) h' end.
(** Assignments are within the array at the time. *)
Fixpoint within {T} (cap : option nat) (dflt : T) (c : contents T) (h : list (action T)) : Prop :=
  match h with
  | [] => True
  | a :: h' => match a with Assign i _ => i < count c | _ => True end /\ within cap dflt (perform cap dflt c a) h'
  end.

(* ---------------------------------------------------------- the model runs a history *)
Definition is_fixed (cap : option nat) : bool := match cap with Some _ => true | None => false end.
Definition capacity (cap : option nat) : nat := match cap with Some c => c | None => 0 end.
Definition kept {A} (m : attempt A) : A := match m with Done a => a | Threw a => a end.
Definition do_action {T} (cap : option nat) (dflt : T) (a : lin T) (x : action T) : outcome (lin T) :=
  match x with
  | Push v => Ret (kept (lin_push_back (is_fixed cap) a v))
  | Assign i v => lin_set a i v
  | Resize n => Ret (kept (lin_resize (is_fixed cap) dflt a n))
  end.
Fixpoint do_all {T} (cap : option nat) (dflt : T) (a : lin T) (h : list (action T)) : outcome (lin T) :=
  match h with [] => Ret a | x :: h' => do b <- do_action cap dflt a x; do_all cap dflt b h' end.

(* ---------------------------------------------------------- proofs *)
Lemma nth_vresize {T} (d : T) l n i : i < n ->
  nth_error (vresize d l n) i = if lt_dec i (length l) then nth_error l i else Some d.
Proof.
  intros H. unfold vresize.
  assert (F : length (firstn n l) = Nat.min n (length l)) by apply firstn_length.
  destruct (lt_dec i (length l)) as [L|L].
  - rewrite nth_error_app1 by lia. clear F L. revert l i H. induction n; intros l i H; [lia|].
    destruct l; [now destruct i|]. destruct i; cbn; auto. apply IHn. lia.
  - rewrite nth_error_app2 by lia. apply nth_error_repeat. lia.
Qed.
Lemma len_vresize {T} (d : T) l n : length (vresize d l n) = n.
Proof. unfold vresize. rewrite app_length, firstn_length, repeat_length. lia. Qed.

(** the array holds the contents *)
Definition holds {T} (cap : option nat) (a : lin T) (c : contents T) : Prop :=
  ldim a = count c /\
  length (lstore a) = match cap with Some n => n | None => count c end /\
  fits cap (count c) /\
  forall i, i < length (lstore a) -> nth_error (lstore a) i = Some (element c i).

Lemma do_action_holds {T} cap (dflt : T) a c x : holds cap a c ->
  match x with Assign i _ => i < count c | _ => True end ->
  exists b, do_action cap dflt a x = Ret b /\ holds cap b (perform cap dflt c x).
Proof.
  intros (Hd & Hl & Hf & Hn) W. destruct x as [v|i v|n]; cbn [do_action perform].
  - eexists; split; [reflexivity|]. unfold lin_push_back. destruct cap as [k|]; cbn [is_fixed fits_dec fits] in *.
    + rewrite Hd, Hl. destruct (Nat.ltb_spec k (count c + 1)); destruct (le_dec (count c + 1) k); try lia; cbn [kept].
      * repeat split; cbn; auto.
      * split; [cbn; lia|]. split; [cbn; now rewrite len_upd|]. split; [cbn; lia|].
        intros i Hi. cbn [lstore element] in *. rewrite len_upd in Hi. rewrite nth_error_upd by lia. rewrite Hl in Hi.
        destruct (Nat.eqb_spec (count c) i); destruct (Nat.eq_dec i (count c)); try lia; auto. apply Hn. lia.
    + cbn [kept]. split; [cbn; lia|]. split; [cbn; rewrite app_length; cbn; lia|]. split; [cbn; auto|].
      intros i Hi. cbn [lstore element] in *. rewrite app_length in Hi. cbn in Hi.
      destruct (Nat.eq_dec i (count c)).
      * subst i. rewrite nth_error_app2 by lia. rewrite Hl, Nat.sub_diag. reflexivity.
      * rewrite nth_error_app1 by lia. apply Hn. lia.
  - unfold lin_set. assert (L : i < length (lstore a)) by (rewrite Hl; destruct cap; cbn in *; lia).
    apply Nat.ltb_lt in L as L'. rewrite L'. eexists; split; [reflexivity|].
    split; [auto|]. split; [cbn; now rewrite len_upd|]. split; [auto|].
    intros j Hj. cbn [lstore element] in *. rewrite len_upd in Hj. rewrite nth_error_upd by lia.
    destruct (Nat.eqb_spec i j); destruct (Nat.eq_dec j i); try lia; auto.
  - eexists; split; [reflexivity|]. unfold lin_resize. destruct cap as [k|]; cbn [is_fixed fits_dec fits] in *.
    + rewrite Hl. destruct (Nat.ltb_spec k n); destruct (le_dec n k); try lia; cbn [kept]; repeat split; cbn; auto.
    + cbn [kept]. split; [auto|]. split; [cbn; apply len_vresize|]. split; [cbn; auto|].
      intros i Hi. cbn [lstore element] in *. rewrite len_vresize in Hi. rewrite nth_vresize by auto. rewrite Hl.
      destruct (lt_dec i (count c)); auto. apply Hn. lia.
Qed.

Lemma holds_new {T} cap (fresh : option T) :
  holds cap (lin_default (is_fixed cap) fresh (capacity cap)) (new fresh).
Proof.
  destruct cap as [k|]; cbn.
  - split; [auto|]. split; [apply repeat_length|]. split; [cbn; lia|]. intros i Hi. cbn in *. rewrite repeat_length in Hi.
    now apply nth_error_repeat.
  - split; [auto|]. split; [auto|]. split; [cbn; auto|]. intros i Hi. cbn in Hi. lia.
Qed.
Lemma do_all_holds {T} cap (dflt : T) h : forall a c, holds cap a c -> within cap dflt c h ->
  exists b, do_all cap dflt a h = Ret b /\ holds cap b (after cap dflt c h).
Proof.
  induction h as [|x h IH]; intros a c H W; cbn [do_all after]; [eauto|].
  destruct W as [W1 W2]. destruct (do_action_holds cap dflt a c x H W1) as (b & -> & Hb). cbn [obind]. eapply IH; eauto.
Qed.

(** Every history of pushes, assignments and resizes: the size and every element are those
    of the specification; the elements of an array of fixed capacity lie in its storage. *)
Theorem C79_history : forall (T : Type) (cap : option nat) (fresh : option T) (dflt : T) (h : list (action T)),
  within cap dflt (new fresh) h ->
  exists a, do_all cap dflt (lin_default (is_fixed cap) fresh (capacity cap)) h = Ret a /\
    let c := after cap dflt (new fresh) h in
    lin_size a = count c /\ lin_empty a = (count c =? 0) /\ fits cap (lin_size a) /\
    forall i, i < count c -> lin_at a i = match element c i with Some v => Ret v | None => UB end.
Proof.
  intros T cap fresh dflt h W. destruct (do_all_holds cap dflt h _ _ (holds_new cap fresh) W) as (a & E & Hd & Hl & Hf & Hn).
  exists a. split; [exact E|]. cbn zeta. split; [exact Hd|]. split; [unfold lin_empty; now rewrite Hd|].
  split; [unfold lin_size; now rewrite Hd|]. intros i Hi. unfold lin_at, slot. rewrite Hn; [destruct (element _ i); reflexivity|].
  rewrite Hl. destruct cap; cbn in *; lia.
Qed.
Print Assumptions C79_history.
(** push 1, push 2, push 3 (refused: capacity 2), shrink to 1, grow to 2: the 2 is back *)
Example C79_history_ex :
  let h := [Push 1; Push 2; Push 3; Resize 1; Resize 2; Assign 0 7] in
  within (Some 2) 0 (new None) h /\
  (let c := after (Some 2) 0 (new None) h in count c = 2 /\ element c 0 = Some 7 /\ element c 1 = Some 2) /\
  (let c := after None 0 (new None) h in count c = 2 /\ element c 0 = Some 7 /\ element c 1 = Some 0).
Proof. cbn. repeat split; auto. Qed.

(** An operation of an array of fixed capacity throws exactly when the elements would not
    fit, and then the array is as before; growing storage never throws. *)
Theorem C79_overflow : forall (T : Type) (dflt : T) (a : lin T) (n : nat) (v : T),
  (length (lstore a) < n -> lin_resize true dflt a n = Threw a) /\
  (n <= length (lstore a) -> exists b, lin_resize true dflt a n = Done b /\ lin_size b = n) /\
  (length (lstore a) <= lin_size a -> lin_push_back true a v = Threw a) /\
  (lin_size a < length (lstore a) -> exists b, lin_push_back true a v = Done b /\ lin_size b = S (lin_size a) /\ lin_at b (lin_size a) = Ret v) /\
  (exists b, lin_resize false dflt a n = Done b /\ lin_size b = n) /\
  (exists b, lin_push_back false a v = Done b /\ lin_size b = S (lin_size a)).
Proof.
  intros T dflt a n v. unfold lin_resize, lin_push_back, lin_size.
  split; [|split; [|split; [|split; [|split]]]].
  - intros H. apply Nat.ltb_lt in H. now rewrite H.
  - intros H. apply Nat.ltb_ge in H. rewrite H. eauto.
  - intros H. destruct (Nat.ltb_spec (length (lstore a)) (ldim a + 1)); [auto|lia].
  - intros H. destruct (Nat.ltb_spec (length (lstore a)) (ldim a + 1)); [lia|]. eexists. split; [reflexivity|]. split; [reflexivity|].
    unfold lin_at, slot. cbn [lstore]. rewrite nth_error_upd by lia. rewrite Nat.eqb_refl. reflexivity.
  - eauto.
  - eauto.
Qed.
Print Assumptions C79_overflow.

(** Constructors: from a size, every place has the default value (growing) or is not
    initialised unless the element type has a default constructor (fixed); from a list of
    values, the array has these values. *)
Theorem C79_constructors : forall (T : Type) (fresh : option T) (dflt : T) (cap d : nat) (vals : list T),
  (exists a, lin_of_size false fresh dflt cap d = Ret a /\ lin_size a = d /\ lin_visit a = Ret (repeat dflt d)) /\
  (d <= cap -> exists a, lin_of_size true fresh dflt cap d = Ret a /\ lin_size a = d /\
     forall i, i < d -> lin_at a i = match fresh with Some v => Ret v | None => UB end) /\
  (cap < d -> lin_of_size true fresh dflt cap d = Throw) /\
  (lin_size (lin_of_list vals) = length vals /\ lin_visit (lin_of_list vals) = Ret vals).
Proof.
  assert (V : forall (T : Type) (l : list T), visit_slots (map Some l) = Ret l).
  { intros T l. induction l as [|x l IH]; cbn; auto. now rewrite IH. }
  intros T fresh dflt cap d vals. unfold lin_of_size, lin_default, lin_resize. split; [|split; [|split]].
  - eexists. split; [reflexivity|]. split; [reflexivity|]. unfold lin_visit, vresize. cbn [lstore firstn].
    rewrite firstn_nil. cbn [app length]. rewrite Nat.sub_0_r.
    replace (repeat (Some dflt) d) with (map Some (repeat dflt d)); [apply V|].
    clear. induction d; cbn; congruence.
  - intros H. cbn [lstore]. rewrite repeat_length. apply Nat.ltb_ge in H as H'. rewrite H'. eexists. split; [reflexivity|].
    split; [reflexivity|]. intros i Hi. unfold lin_at, slot. cbn [lstore]. rewrite nth_error_repeat by lia. now destruct fresh.
  - intros H. cbn [lstore]. rewrite repeat_length. apply Nat.ltb_lt in H. now rewrite H.
  - split; [reflexivity|]. apply V.
Qed.
Print Assumptions C79_constructors.

(** begin() ... end() visits the storage: the elements when it is growing or full, but the
    unused places too when a fixed array is not full. *)
Lemma visit_slots_ok {T} : forall (l : list (option T)) vs, visit_slots l = Ret vs <-> l = map Some vs.
Proof.
  induction l as [|[x|] l IH]; intros vs; cbn.
  - split; [intros E; injection E as <-; reflexivity|]. destruct vs; [reflexivity|discriminate].
  - split.
    + intros E. apply obind_ret in E as (r & Hr & E). injection E as <-. cbn. f_equal. now apply IH.
    + destruct vs as [|v vs]; [discriminate|]. cbn. intros E. injection E as <- E. rewrite (proj2 (IH vs) E). reflexivity.
  - split; [discriminate|]. destruct vs; discriminate.
Qed.
Theorem C79_iteration : forall (T : Type) (cap : option nat) (fresh : option T) (dflt : T) h a,
  within cap dflt (new fresh) h ->
  do_all cap dflt (lin_default (is_fixed cap) fresh (capacity cap)) h = Ret a ->
  let c := after cap dflt (new fresh) h in
  (forall vs, lin_visit a = Ret vs ->
     length vs = match cap with Some k => k | None => count c end /\
     forall i, i < count c -> element c i = nth_error vs i) /\
  ((exists vs, lin_visit a = Ret vs) <-> forall i, i < match cap with Some k => k | None => count c end -> element c i <> None).
Proof.
  intros T cap fresh dflt h a W E c. destruct (do_all_holds cap dflt h _ _ (holds_new cap fresh) W) as (a' & E' & Hd & Hl & Hf & Hn).
  assert (a' = a) by congruence. subst a'. fold c in Hd, Hl, Hf, Hn.
  assert (CK : forall i, i < count c -> i < length (lstore a)) by (intros i Hi; rewrite Hl; destruct cap; cbn in *; lia).
  split.
  - intros vs V. apply visit_slots_ok in V. split.
    + rewrite <- Hl. rewrite V. now rewrite map_length.
    + intros i Hi. specialize (Hn i (CK i Hi)). rewrite V in Hn. rewrite nth_error_map in Hn.
      destruct (nth_error vs i); cbn in Hn; [injection Hn as <-; reflexivity|discriminate].
  - rewrite <- Hl. clear - Hn. unfold lin_visit. revert Hn. generalize (lstore a). generalize (element c). intros f l. revert f.
    intros f Hn. split.
    + intros (vs & V) i Hi. apply (proj1 (visit_slots_ok _ _)) in V. rewrite V in Hi, Hn. clear V. specialize (Hn i Hi). rewrite nth_error_map in Hn.
      destruct (nth_error vs i); cbn in Hn; [injection Hn as <-|]; discriminate.
    + intros H. revert f Hn H. induction l as [|x l IH]; intros f Hn H; [exists []; reflexivity|].
      destruct (IH (fun i => f (S i))) as (vs & V).
      * intros i Hi. apply (Hn (S i)). cbn. lia.
      * intros i Hi. apply H. cbn. lia.
      * specialize (Hn 0 (Nat.lt_0_succ _)). cbn in Hn. injection Hn as ->. specialize (H 0 (Nat.lt_0_succ _)).
        destruct (f 0) as [v|]; [|contradiction]. exists (v :: vs). apply visit_slots_ok. apply visit_slots_ok in V. cbn. now rewrite V.
Qed.
Print Assumptions C79_iteration.

(** Equality of two arrays made with the same capacity, all places initialised: true
    exactly when the sizes and all places are equal, including those past the size. *)
Lemma slots_eq_true {T} (eqb : T -> T -> bool) : (forall x y, eqb x y = true <-> x = y) ->
  forall l r, length l = length r ->
  (l = r -> slots_eq eqb (map Some l) (map Some r) = Ret true) /\ (l <> r -> slots_eq eqb (map Some l) (map Some r) = Ret false).
Proof.
  intros E. induction l as [|x l IH]; intros r H; destruct r as [|y r]; try discriminate H.
  - split; [reflexivity|congruence].
  - cbn. injection H as H. specialize (IH r H). split.
    + intros Q. injection Q as <- <-. rewrite (proj2 (E x x) eq_refl). apply IH. reflexivity.
    + intros Q. destruct (eqb x y) eqn:B; [|reflexivity]. apply E in B. subst y. apply IH. congruence.
Qed.
Theorem C79_equality : forall (T : Type) (eqb : T -> T -> bool) (a b : lin T) (va vb : list T),
  (forall x y, eqb x y = true <-> x = y) ->
  lin_visit a = Ret va -> lin_visit b = Ret vb ->
  (lin_size a = lin_size b /\ va = vb -> lin_eq eqb a b = Ret true) /\
  (~ (lin_size a = lin_size b /\ va = vb) -> lin_eq eqb a b = Ret false).
Proof.
  intros T eqb a b va vb E Ha Hb. apply visit_slots_ok in Ha, Hb. unfold lin_eq, lin_size. rewrite Ha, Hb, !map_length. split.
  - intros (D & ->). rewrite D, !Nat.eqb_refl. cbn [negb]. now apply slots_eq_true.
  - intros N. destruct (Nat.eqb_spec (ldim b) (ldim a)); [|reflexivity]. cbn [negb].
    destruct (Nat.eqb_spec (length vb) (length va)); [|reflexivity]. cbn [negb]. apply slots_eq_true; auto.
Qed.
Print Assumptions C79_equality.

(** So arrays of fixed capacity with the same size and the same elements need not be equal,
    and print elements they do not have. *)
Theorem C79_unused_places_refuted :
  let run h := do_all (Some 3) 0 (lin_default true (Some 0) 3) h in
  exists a b, run [Push 1; Push 2; Resize 1] = Ret a /\ run [Push 1] = Ret b /\
    lin_size a = lin_size b /\ (forall i, i < lin_size a -> lin_at a i = lin_at b i) /\
    lin_eq Nat.eqb a b = Ret false /\
    lin_repr (fun n => match n with 0 => "0" | 1 => "1" | _ => "2" end) a = Ret "[1, 2, 0]".
Proof.
  do 2 eexists. split; [reflexivity|]. split; [reflexivity|]. split; [reflexivity|]. split.
  - cbn. intros i Hi. destruct i; [reflexivity|lia].
  - split; reflexivity.
Qed.
Print Assumptions C79_unused_places_refuted.
(** With numbers that have no default constructor, comparing, printing or adding arrays
    that are not full reads uninitialised storage. *)
Theorem C79_uninitialised_refuted : forall (T : Type) (x dflt : T) (eqb : T -> T -> bool) (show : T -> string) (f : T -> T -> T),
  eqb x x = true ->
  exists a, do_all (Some 2) dflt (lin_default true None 2) [Push x] = Ret a /\
    lin_size a = 1 /\ lin_at a 0 = Ret x /\ lin_eq eqb a a = UB /\ lin_repr show a = UB /\ lin_zip true f a a = UB.
Proof.
  intros T x dflt eqb show f E. eexists. split; [reflexivity|]. split; [reflexivity|]. split; [reflexivity|].
  split; [cbn; rewrite E; reflexivity|]. split; reflexivity.
Qed.
Print Assumptions C79_uninitialised_refuted.

(** The text: the visited elements between brackets, separated by ", ". *)
Definition comma_list (texts : list string) : string := "[" ++ String.concat ", " texts ++ "]".
Lemma s_app_assoc (a b c : string) : (a ++ b) ++ c = a ++ (b ++ c).
Proof. induction a; cbn; congruence. Qed.
Lemma s_len_app (a b : string) : String.length (a ++ b) = String.length a + String.length b.
Proof. induction a; cbn; congruence. Qed.
Lemma substring_app (a b : string) : substring 0 (String.length a) (a ++ b) = a.
Proof. induction a; cbn; [destruct b; reflexivity|congruence]. Qed.
Lemma drop2_app (a : string) : drop2 (a ++ ", ") = a.
Proof.
  unfold drop2. rewrite s_len_app. cbn [String.length]. destruct (Nat.ltb_spec (String.length a + 2) 2); [lia|].
  replace (String.length a + 2 - 2) with (String.length a) by lia. apply substring_app.
Qed.
Lemma text_fold {T} (show : T -> string) : forall vs v acc,
  fold_left (fun out v => out ++ (show v ++ ", ")) (v :: vs) acc = (acc ++ String.concat ", " (map show (v :: vs))) ++ ", ".
Proof.
  induction vs as [|w vs IH]; intros v acc.
  - cbn. now rewrite s_app_assoc.
  - cbn [fold_left]. cbn [fold_left] in IH. rewrite IH. cbn [map String.concat]. rewrite !s_app_assoc. reflexivity.
Qed.
Theorem C79_text : forall (T : Type) (show : T -> string) (a : lin T) (vs : list T),
  (lin_size a = 0 -> lin_repr show a = Ret "[]") /\
  (lin_size a <> 0 -> lin_visit a = Ret vs -> lin_repr show a = Ret (comma_list (map show vs))).
Proof.
  intros T show a vs. unfold lin_repr, lin_empty, lin_size. split.
  - intros ->. reflexivity.
  - intros N V. destruct (Nat.eqb_spec (ldim a) 0); [contradiction|]. rewrite V. cbn [obind]. unfold comma_list.
    destruct vs as [|v vs]; [reflexivity|]. rewrite text_fold, drop2_app. rewrite s_app_assoc. reflexivity.
Qed.
Print Assumptions C79_text.

(** Elementwise operations of linear arrays. *)
Lemma zip_slots_ok {A B C} (f : A -> B -> C) : forall n i l r (va : nat -> A) (vb : nat -> B),
  (forall j, i <= j < i + n -> nth_error l j = Some (Some (va j)) /\ nth_error r j = Some (Some (vb j))) ->
  zip_slots f n i l r = Ret (map (fun j => Some (f (va j) (vb j))) (seq i n)).
Proof.
  induction n; intros i l r va vb H; [reflexivity|]. cbn. unfold slot.
  destruct (H i ltac:(lia)) as [-> ->]. cbn [obind]. rewrite (IHn (S i) l r va vb) by (intros; apply H; lia). reflexivity.
Qed.
Lemma slot_cases {T} (l : list (option T)) i : (exists v, slot l i = Ret v /\ nth_error l i = Some (Some v)) \/ slot l i = UB.
Proof. unfold slot. destruct (nth_error l i) as [[v|]|]; eauto. Qed.
Lemma zip_slots_ub {A B C} (f : A -> B -> C) : forall n i l r,
  (exists j, i <= j < i + n /\ (slot l j = UB \/ slot r j = UB)) -> zip_slots f n i l r = UB.
Proof.
  induction n; intros i l r (j & H & D); [lia|]. cbn.
  destruct (slot_cases l i) as [(x & E1 & _)|E1]; rewrite E1; [|reflexivity].
  destruct (slot_cases r i) as [(y & E2 & _)|E2]; rewrite E2; [|reflexivity]. cbn [obind].
  destruct (Nat.eq_dec j i) as [->|N]; [destruct D; congruence|].
  rewrite IHn; [reflexivity|]. exists j. split; [lia|auto].
Qed.
Lemma zip_slots_some {A B C} (f : A -> B -> C) : forall n i l r,
  (forall j, i <= j < i + n -> exists x y, nth_error l j = Some (Some x) /\ nth_error r j = Some (Some y)) ->
  exists s, zip_slots f n i l r = Ret s /\ length s = n /\
    forall j, j < n -> exists x y, nth_error l (i + j) = Some (Some x) /\ nth_error r (i + j) = Some (Some y) /\ nth_error s j = Some (Some (f x y)).
Proof.
  induction n; intros i l r H.
  - exists []. split; [reflexivity|]. split; [reflexivity|]. intros; lia.
  - destruct (H i ltac:(lia)) as (x & y & E1 & E2). destruct (IHn (S i) l r) as (s & Es & Ls & P); [intros j Hj; apply H; lia|].
    cbn. unfold slot. rewrite E1, E2. cbn [obind]. rewrite Es. cbn [obind]. eexists. split; [reflexivity|]. split; [cbn; lia|].
    intros [|j] Hj; [exists x, y; rewrite Nat.add_0_r; auto|]. cbn [nth_error]. rewrite <- plus_n_Sm. apply (P j). lia.
Qed.
Lemma nth_error_firstn' {T} (l : list T) : forall n j, j < n -> nth_error (firstn n l) j = nth_error l j.
Proof. induction l as [|x t IH]; intros [|n] [|j] H; try lia; auto. cbn. apply IH. lia. Qed.
(** The places of the result: all of the storage when it is fixed. *)
Definition result_places {A} (fixed : bool) (l : lin A) : nat := if fixed then length (lstore l) else lin_size l.
Theorem C79_elementwise : forall (A B C : Type) (fixed : bool) (f : A -> B -> C) (l : lin A) (r : lin B),
  lin_size l <= result_places fixed l ->
  (lin_size l <> lin_size r -> lin_zip fixed f l r = Throw) /\
  (forall va vb, lin_size l = lin_size r ->
     (forall i, i < result_places fixed l -> lin_at l i = Ret (va i) /\ lin_at r i = Ret (vb i)) ->
     exists o, lin_zip fixed f l r = Ret o /\ lin_size o = lin_size l /\ length (lstore o) = result_places fixed l /\
       forall i, i < result_places fixed l -> lin_at o i = Ret (f (va i) (vb i))) /\
  (lin_size l = lin_size r ->
     (exists i, i < result_places fixed l /\ (lin_at l i = UB \/ lin_at r i = UB)) -> lin_zip fixed f l r = UB).
Proof.
  intros A B C fixed f l r HL. unfold lin_zip, result_places, lin_size, lin_at in *.
  assert (NT : fixed && ((if fixed then length (lstore l) else ldim l) <? ldim l) = false).
  { destruct fixed; [|reflexivity]. cbn. apply Nat.ltb_ge. exact HL. }
  split; [|split].
  - intros N. apply Nat.eqb_neq in N. now rewrite N.
  - intros va vb E H. rewrite E, Nat.eqb_refl. cbn [negb]. rewrite <- E, NT.
    rewrite (zip_slots_ok f _ 0 (lstore l) (lstore r) va vb).
    + eexists. split; [reflexivity|]. split; [reflexivity|]. cbn [lstore]. rewrite map_length, seq_length. split; [reflexivity|].
      intros i Hi. unfold slot. rewrite nth_error_map. rewrite (nth_error_nth' _ 0) by (now rewrite seq_length).
      rewrite seq_nth by auto. reflexivity.
    + intros j Hj. destruct (H j ltac:(lia)) as [P Q].
      destruct (slot_cases (lstore l) j) as [(x & E1 & E1')|E1]; [|congruence].
      destruct (slot_cases (lstore r) j) as [(y & E2 & E2')|E2]; [|congruence]. 
      rewrite P in E1. rewrite Q in E2. injection E1 as <-. injection E2 as <-. auto.
  - intros E (i & Hi & D). rewrite E, Nat.eqb_refl. cbn [negb]. rewrite <- E, NT.
    rewrite zip_slots_ub; [reflexivity|]. exists i. split; [lia|auto].
Qed.
Print Assumptions C79_elementwise.
(** One array and something else, or a function of the elements (derivative, simplify). *)
Lemma map_slots_zip {A C} (f : A -> C) : forall n i l, map_slots f n i l = zip_slots (fun x _ => f x) n i l l.
Proof.
  induction n; intros i l; [reflexivity|]. cbn. destruct (slot l i); [|reflexivity..]. cbn [obind]. now rewrite IHn.
Qed.
Theorem C79_map : forall (A C : Type) (fixed : bool) (f : A -> C) (l : lin A),
  lin_size l <= result_places fixed l ->
  (forall va, (forall i, i < result_places fixed l -> lin_at l i = Ret (va i)) ->
     exists o, lin_map fixed f l = Ret o /\ lin_size o = lin_size l /\ length (lstore o) = result_places fixed l /\
       forall i, i < result_places fixed l -> lin_at o i = Ret (f (va i))) /\
  ((exists i, i < result_places fixed l /\ lin_at l i = UB) -> lin_map fixed f l = UB).
Proof.
  intros A C fixed f l HL. destruct (C79_elementwise A A C fixed (fun x _ => f x) l l HL) as (_ & X & Y).
  assert (E : lin_map fixed f l = lin_zip fixed (fun x _ => f x) l l).
  { unfold lin_map, lin_zip. rewrite Nat.eqb_refl. cbn [negb]. destruct (fixed && _); [reflexivity|]. now rewrite map_slots_zip. }
  rewrite E. split.
  - intros va H. apply (X va va eq_refl). auto.
  - intros (i & Hi & U). apply Y; [reflexivity|]. exists i. auto.
Qed.
Print Assumptions C79_map.
(** An array of fixed capacity plus a growing array of the same size and no more storage
    reads past the end of the latter, unless the first is full; the other way round, only
    the elements are read. *)
Theorem C79_mixed_refuted : forall (T : Type) (f : T -> T -> T) (x y z : T),
  let a := Lin 1 [Some x; Some y] in let b := lin_of_list [z] in
  lin_size a = lin_size b /\ lin_zip true f a b = UB /\
  exists o, lin_zip false f b a = Ret o /\ lin_visit o = Ret [f z x].
Proof. intros. split; [reflexivity|]. split; [reflexivity|]. eexists. split; reflexivity. Qed.
Print Assumptions C79_mixed_refuted.

(** Conversion to an expression takes exactly the elements. *)
Theorem C79_to_expression : forall (T : Type) (a : lin T) (vs : list T),
  lin_to_expr a = Ret vs <-> length vs = lin_size a /\ forall i, i < lin_size a -> exists v, lin_at a i = Ret v /\ nth_error vs i = Some v.
Proof.
  assert (G : forall (T : Type) n i (l : list (option T)) vs,
    copy_loop n i l = Ret vs <-> length vs = n /\ forall k, k < n -> exists v, slot l (i + k) = Ret v /\ nth_error vs k = Some v).
  { intros T. induction n; intros i l vs; cbn.
    - split; [intros E; injection E as <-; split; [reflexivity|lia]|]. intros [H _]. destruct vs; [reflexivity|discriminate].
    - split.
      + intros E. apply obind_ret in E as (x & Hx & E). apply obind_ret in E as (t & Ht & E). injection E as <-.
        apply IHn in Ht as [L H]. split; [cbn; lia|]. intros k Hk. destruct k as [|k].
        * exists x. rewrite Nat.add_0_r. auto.
        * destruct (H k ltac:(lia)) as (v & Hv & Hn). exists v. rewrite <- Nat.add_succ_comm. auto.
      + intros [L H]. destruct vs as [|v vs]; [discriminate|]. destruct (H 0 ltac:(lia)) as (w & Hw & Hn). cbn in Hn. injection Hn as <-.
        rewrite Nat.add_0_r in Hw. rewrite Hw. cbn [obind].
        assert (E : copy_loop n (S i) l = Ret vs).
        { apply IHn. split; [cbn in L; lia|]. intros k Hk. destruct (H (S k) ltac:(lia)) as (u & Hu & Hk'). exists u.
          rewrite <- Nat.add_succ_comm in Hu. auto. }
        rewrite E. reflexivity. }
  intros T a vs. unfold lin_to_expr, lin_at, lin_size. rewrite G. reflexivity.
Qed.
Print Assumptions C79_to_expression.
(** The constructor from a size and a list does not check that they agree: with fewer
    values than the size, the elements (and the conversion) are out of bounds. *)
Theorem C79_size_and_list : forall (T : Type) (d : nat) (vals : list T),
  lin_size (lin_of_size_list d vals) = d /\
  (forall i, lin_at (lin_of_size_list d vals) i = match nth_error vals i with Some v => Ret v | None => UB end) /\
  lin_visit (lin_of_size_list d vals) = Ret vals.
Proof.
  intros T d vals. split; [reflexivity|]. split.
  - intros i. unfold lin_at, slot. cbn. rewrite nth_error_map. now destruct (nth_error vals i).
  - apply visit_slots_ok. reflexivity.
Qed.
Print Assumptions C79_size_and_list.

(** ** Row-major arrays of fixed capacity *)
(** A resize that fits keeps the storage, and every coordinate of the new box has its own
    place in it; otherwise it throws. *)
Theorem C79_row_major : forall (T : Type) (a : arr (option T)) (ds : list nat), ds <> [] ->
  (volume ds <= length (store a) ->
     exists b, rm_resize a ds = Done b /\ dims b = ds /\ store b = store a /\
       (forall c v, in_box ds c -> exists b', rm_set b c v = Ret b' /\ dims b' = ds /\ rm_at b' c = Ret v /\
          forall c', in_box ds c' -> c' <> c -> rm_at b' c' = rm_at b c')) /\
  (length (store a) < volume ds -> exists b, rm_resize a ds = Threw b).
Proof.
  intros T a ds N. unfold rm_resize.
  assert (SV : store_size (Arr ds (store a)) = volume ds) by (rewrite store_size_volume; cbn; now destruct ds).
  rewrite SV. split.
  - intros H. apply Nat.ltb_ge in H as H'. rewrite H'. eexists. split; [reflexivity|]. split; [reflexivity|]. split; [reflexivity|].
    intros c v Hc. unfold rm_set, rm_at, coords_to_index. cbn [dims store].
    assert (I : forall c', in_box ds c' -> index_loop 0 ds c' = Ret (row_major ds c') /\ row_major ds c' < length (store a)).
    { intros c' Hc'. split.
      - rewrite index_loop_ok by now apply in_box_length. f_equal. 
      - pose proof (row_major_lt ds c' Hc'). lia. }
    destruct (I c Hc) as [-> Lc]. cbn [obind]. apply Nat.ltb_lt in Lc as Lc'. rewrite Lc'.
    eexists. split; [reflexivity|]. split; [reflexivity|]. cbn [dims store]. rewrite (proj1 (I c Hc)). cbn [obind]. split.
    + unfold slot. rewrite nth_error_upd by auto. now rewrite Nat.eqb_refl.
    + intros c' Hc' Nc. destruct (I c' Hc') as [-> L']. cbn [obind]. unfold slot. rewrite nth_error_upd by auto.
      destruct (Nat.eqb_spec (row_major ds c) (row_major ds c')); [|reflexivity].
      exfalso. apply Nc. symmetry. eapply row_major_inj; eauto.
  - intros H. apply Nat.ltb_lt in H. rewrite H. eauto.
Qed.
Print Assumptions C79_row_major.
(** A new row-major array of capacity [cap] has no dimensions and can be given
    exactly the dimensions whose product is at most [cap]; every element is then
    what the storage was built with. *)
Theorem C79_new_row_major : forall (T : Type) (fresh : option T) (cap : nat) (ds : list nat), ds <> [] ->
  dims (rm_default fresh cap) = [] /\
  (volume ds <= cap -> exists b, rm_resize (rm_default fresh cap) ds = Done b /\ dims b = ds /\
     forall c, in_box ds c -> rm_at b c = match fresh with Some v => Ret v | None => UB end) /\
  (cap < volume ds -> exists b, rm_resize (rm_default fresh cap) ds = Threw b).
Proof.
  intros T fresh cap ds N. split; [reflexivity|].
  destruct (C79_row_major T (rm_default fresh cap) ds N) as (A & B). unfold rm_default in *. cbn [store] in *. rewrite repeat_length in *. split; [|exact B].
  intros V. destruct (A V) as (b & E & D & S & _). exists b. split; [exact E|]. split; [exact D|]. intros c Hc.
  unfold rm_at, coords_to_index. rewrite D, S, index_loop_ok by now apply in_box_length. cbn [obind]. unfold slot.
  pose proof (row_major_lt ds c Hc) as L. rewrite (nth_error_nth' _ fresh) by (rewrite repeat_length; lia).
  rewrite nth_repeat. reflexivity.
Qed.
Print Assumptions C79_new_row_major.
(** A refused resize (or push_back) is not without effect: the array keeps the new
    dimensions, and coordinates inside them are outside the storage. *)
Theorem C79_refused_resize_refuted : forall (T : Type) (a : arr (option T)) (ds : list nat), ds <> [] ->
  length (store a) < volume ds ->
  exists b, rm_resize a ds = Threw b /\ dims b = ds /\ (exists c, in_box ds c /\ rm_at b c = UB).
Proof.
  intros T a ds N H. unfold rm_resize.
  assert (SV : store_size (Arr ds (store a)) = volume ds) by (rewrite store_size_volume; cbn; now destruct ds).
  rewrite SV. apply Nat.ltb_lt in H as H'. rewrite H'. eexists. split; [reflexivity|]. split; [reflexivity|].
  destruct (row_major_onto ds (length (store a)) H) as (c & Hc & E). exists c. split; [exact Hc|].
  unfold rm_at, coords_to_index. cbn [dims store]. rewrite index_loop_ok by now apply in_box_length. cbn [Nat.mul Nat.add]. 
  rewrite E. cbn [obind]. unfold slot. now rewrite (proj2 (nth_error_None _ _) (le_n _)).
Qed.
Print Assumptions C79_refused_resize_refuted.
(** Elementwise operations of row-major arrays of fixed capacity: element by element
    when every place of the storage has a value; different dimensions throw; a place
    without a value, needed or not, is read. *)
Theorem C79_row_major_elementwise : forall (A B C : Type) (f : A -> B -> C) (l : arr (option A)) (r : arr (option B)),
  volume (dims l) <= length (store l) ->
  (dims l <> dims r -> rm_zip f l r = Throw) /\
  (dims l = dims r -> length (store l) <= length (store r) -> ~ In None (store l) -> ~ In None (firstn (length (store l)) (store r)) ->
     exists o, rm_zip f l r = Ret o /\ dims o = dims l /\ length (store o) = length (store l) /\
       forall c, in_box (dims l) c -> exists x y, rm_at l c = Ret x /\ rm_at r c = Ret y /\ rm_at o c = Ret (f x y)) /\
  (dims l = dims r -> length (store r) < length (store l) \/ In None (store l) \/ In None (firstn (length (store l)) (store r)) ->
     rm_zip f l r = UB).
Proof.
  intros A B C f l r V. unfold rm_zip, dims_eqb.
  assert (SV : (length (store l) <? store_size l) = false).
  { apply Nat.ltb_ge. rewrite store_size_volume. destruct (dims l); lia. }
  rewrite SV. split; [|split].
  - intros N. destruct (list_eq_dec Nat.eq_dec (dims l) (dims r)); [contradiction|reflexivity].
  - intros E L N1 N2. destruct (list_eq_dec Nat.eq_dec (dims l) (dims r)); [|contradiction]. cbn [negb].
    assert (P : forall j, j < length (store l) -> exists x y, nth_error (store l) j = Some (Some x) /\ nth_error (store r) j = Some (Some y)).
    { intros j Hj. destruct (nth_error (store l) j) as [[x|]|] eqn:E1.
      - destruct (nth_error (store r) j) as [[y|]|] eqn:E2; [eauto|exfalso|exfalso].
        + apply N2. apply nth_error_In with j. rewrite nth_error_firstn' by auto. exact E2.
        + apply nth_error_None in E2. lia.
      - exfalso. apply N1. eapply nth_error_In; eauto.
      - apply nth_error_None in E1. lia. }
    destruct (zip_slots_some f (length (store l)) 0 (store l) (store r)) as (s & Es & Ls & H); [intros j Hj; apply P; lia|].
    rewrite Es. cbn [obind]. eexists. split; [reflexivity|]. split; [reflexivity|]. cbn [dims store]. split; [exact Ls|].
    intros c Hc. pose proof (row_major_lt _ c Hc) as Lc. destruct (H (row_major (dims l) c) ltac:(lia)) as (x & y & E1 & E2 & E3).
    exists x, y. unfold rm_at, coords_to_index. cbn [dims store]. rewrite <- E. rewrite index_loop_ok by now apply in_box_length.
    cbn [obind]. unfold slot. cbn [Nat.mul Nat.add] in *. rewrite E1, E2, E3. auto.
  - intros E D. destruct (list_eq_dec Nat.eq_dec (dims l) (dims r)); [|contradiction]. cbn [negb].
    rewrite zip_slots_ub; [reflexivity|]. destruct D as [D|[D|D]].
    + exists (length (store r)). split; [lia|]. right. unfold slot. rewrite (proj2 (nth_error_None _ _)); auto.
    + apply In_nth_error in D. destruct D as (j & D). exists j. split; [split; [lia|]; apply nth_error_Some; congruence|]. left. unfold slot. now rewrite D.
    + apply In_nth_error in D. destruct D as (j & D). assert (Lj : j < length (firstn (length (store l)) (store r))) by (apply nth_error_Some; congruence).
      rewrite firstn_length in Lj. exists j. split; [lia|]. right. unfold slot. rewrite nth_error_firstn' in D by lia. now rewrite D.
Qed.
Print Assumptions C79_row_major_elementwise.
Theorem C79_row_major_map : forall (A C : Type) (f : A -> C) (l : arr (option A)),
  volume (dims l) <= length (store l) ->
  (~ In None (store l) ->
     exists o, rm_map f l = Ret o /\ dims o = dims l /\ length (store o) = length (store l) /\
       forall c, in_box (dims l) c -> exists x, rm_at l c = Ret x /\ rm_at o c = Ret (f x)) /\
  (In None (store l) -> rm_map f l = UB).
Proof.
  intros A C f l V. destruct (C79_row_major_elementwise A A C (fun x _ => f x) l l V) as (_ & X & Y).
  assert (E : rm_map f l = rm_zip (fun x _ => f x) l l).
  { unfold rm_map, rm_zip, dims_eqb. destruct (list_eq_dec _ _ _); [|contradiction]. cbn [negb]. destruct (_ <? _); [reflexivity|]. now rewrite map_slots_zip. }
  rewrite E. split.
  - intros N. destruct (X eq_refl (le_n _) N) as (o & Eo & Do & Lo & H); [now rewrite firstn_all|]. exists o. do 3 (split; [assumption|]).
    intros c Hc. destruct (H c Hc) as (x & y & E1 & E2 & E3). exists x. auto.
  - intros I. apply Y; auto.
Qed.
Print Assumptions C79_row_major_map.
(** Equality and text of row-major arrays of fixed capacity: the dimensions and the whole
    storage count. *)
Theorem C79_row_major_equality : forall (T : Type) (eqb : T -> T -> bool) (a b : arr (option T)) (va vb : list T),
  (forall x y, eqb x y = true <-> x = y) -> length va = length vb ->
  store a = map Some va -> store b = map Some vb ->
  (dims a = dims b /\ va = vb -> rm_eq eqb a b = Ret true) /\
  (~ (dims a = dims b /\ va = vb) -> rm_eq eqb a b = Ret false).
Proof.
  intros T eqb a b va vb E L Ha Hb. unfold rm_eq, dims_eqb. rewrite Ha, Hb. split.
  - intros (D & ->). destruct (list_eq_dec Nat.eq_dec (dims b) (dims a)); [|congruence]. cbn [negb]. now apply slots_eq_true.
  - intros N. destruct (list_eq_dec Nat.eq_dec (dims b) (dims a)); [|reflexivity]. cbn [negb]. apply slots_eq_true; auto.
Qed.
Print Assumptions C79_row_major_equality.
Theorem C79_row_major_text : forall (T : Type) (show : T -> string) (a : arr (option T)) (vs : list T), dims a <> [] ->
  (volume (dims a) = 0 -> rm_repr show a = Ret "[]") /\
  (volume (dims a) <> 0 -> store a = map Some vs -> rm_repr show a = Ret (comma_list (map show vs))) /\
  (volume (dims a) <> 0 -> In None (store a) -> rm_repr show a = UB).
Proof.
  intros T show a vs N. unfold rm_repr.
  assert (SV : store_size a = volume (dims a)) by (rewrite store_size_volume; destruct (dims a); [contradiction|reflexivity]). rewrite SV. split; [|split].
  - intros ->. reflexivity.
  - intros V S. destruct (Nat.eqb_spec (volume (dims a)) 0); [contradiction|]. rewrite S, (proj2 (visit_slots_ok _ vs) eq_refl). cbn [obind]. unfold comma_list.
    destruct vs as [|v vs]; [reflexivity|]. rewrite text_fold, drop2_app. rewrite s_app_assoc. reflexivity.
  - intros V I. destruct (Nat.eqb_spec (volume (dims a)) 0); [contradiction|]. replace (visit_slots (store a)) with (@UB (list T)); [reflexivity|].
    symmetry. clear -I. induction (store a) as [|[x|] t IH]; [contradiction| |reflexivity]. cbn. destruct I as [I|I]; [discriminate|]. now rewrite (IH I).
Qed.
Print Assumptions C79_row_major_text.
Example C79_row_major_full_ex : let a := Arr [2; 2] (map Some [1; 2; 3; 4]) in
  rm_zip Nat.add a a = Ret (Arr [2; 2] (map Some [2; 4; 6; 8])) /\ rm_eq Nat.eqb a a = Ret true /\
  rm_repr (fun n => match n with 1 => "1" | 2 => "2" | 3 => "3" | _ => "4" end) a = Ret "[1, 2, 3, 4]" /\
  rm_zip Nat.add a (Arr [4] (store a)) = Throw.
Proof. repeat split. Qed.
(** push_back on a row-major array of fixed capacity *)
Theorem C79_row_major_push : forall (T : Type) (a : arr (option T)) (n : nat) (v : T),
  (dims a = [] /\ n = 0 \/ dims a = [n]) ->
  (n < length (store a) -> exists b, rm_push_back a v = Done b /\ dims b = [S n] /\ rm_at b [n] = Ret v /\
     forall i, i < n -> rm_at b [i] = slot (store a) i) /\
  (length (store a) <= n -> rm_push_back a v = Threw (Arr [n] (store a))).
Proof.
  intros T a n v D. unfold rm_push_back. assert (E : match dims a with [] => [0] | l => l end = [n]).
  { destruct D as [[-> ->]| ->]; reflexivity. }
  rewrite E. split.
  - intros H. destruct (Nat.ltb_spec (length (store a)) (n + 1)); [lia|]. eexists. split; [reflexivity|]. split; [reflexivity|].
    unfold rm_at, coords_to_index, slot. cbn [dims store index_loop obind Nat.mul Nat.add].
    rewrite !nth_error_upd by lia. rewrite Nat.eqb_refl. split; [reflexivity|]. intros i Hi.
    cbn [dims store index_loop obind Nat.mul Nat.add]. rewrite nth_error_upd by lia.
    destruct (Nat.eqb_spec n i); [lia|reflexivity].
  - intros H. destruct (Nat.ltb_spec (length (store a)) (n + 1)); [reflexivity|lia].
Qed.
Print Assumptions C79_row_major_push.
Theorem C79_row_major_push_rank : forall (T : Type) (a : arr (option T)) (v : T) m n ds,
  dims a = m :: n :: ds -> rm_push_back a v = Threw a.
Proof. intros T a v m n ds E. unfold rm_push_back. destruct a as [d s]. cbn in *. subst d. reflexivity. Qed.
Example C79_row_major_ex : exists b, rm_resize (rm_default None 6 : arr (option nat)) [2; 3] = Done b /\ dims b = [2; 3] /\
  exists c, rm_resize b [2; 4] = Threw c.
Proof. eexists. split; [reflexivity|]. split; [reflexivity|]. eexists. reflexivity. Qed.

(** Chained access with a number of dimensions known to the compiler is access by the
    coordinates, whatever the coordinates contained before. *)
Theorem C79_static_chain : forall (T : Type) (a : arr (option T)) (garbage is : list nat),
  length garbage = length is -> is <> [] -> rm_chain_read a garbage is = rm_at a is.
Proof.
  intros T a garbage is L N. unfold rm_chain_read. f_equal.
  assert (G : forall is pre rest, length rest = length is -> is <> [] ->
    static_chain (length pre + length is) (length is) (pre ++ rest)%list is = (pre ++ is)%list).
  { clear. induction is as [|i t IH]; intros pre rest L N; [contradiction|].
    destruct rest as [|g rest]; [discriminate|]. cbn [length] in L. injection L as L.
    assert (U : forall (p : list nat) x r v, upd (p ++ x :: r)%list (length p) v = (p ++ v :: r)%list).
    { induction p; intros; cbn; [reflexivity|]. now rewrite IHp. }
    destruct t as [|j t].
    - destruct rest; [|discriminate]. cbn [static_chain length]. replace (length pre + 1 - 1) with (length pre) by lia. apply U.
    - cbn [length]. change (static_chain (length pre + S (S (length t))) (S (S (length t))) (pre ++ g :: rest)%list (i :: j :: t))
        with (static_chain (length pre + S (S (length t))) (S (S (length t)) - 1)
                (upd (pre ++ g :: rest)%list (length pre + S (S (length t)) - S (S (length t))) i) (j :: t)).
      replace (length pre + S (S (length t)) - S (S (length t))) with (length pre) by lia. rewrite U.
      specialize (IH (pre ++ [i])%list rest L ltac:(discriminate)). rewrite app_length in IH. cbn [length] in IH.
      rewrite <- !(app_assoc pre) in IH. cbn [app] in IH. replace (length pre + 1 + S (length t)) with (length pre + S (S (length t))) in IH by lia.
      replace (S (S (length t)) - 1) with (S (length t)) by lia. exact IH. }
  specialize (G is [] garbage L N). cbn in G. now rewrite L.
Qed.
Print Assumptions C79_static_chain.
