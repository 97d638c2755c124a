(** Number operations used by the numeric code, arrays and counting loops.

    The C++ numeric functions are templates over a coefficient type; the model
    is written once over a record of operations.  Instances: [R] (exact real
    arithmetic, used by the theorems: IEEE rounding is idealised away), [Q]
    (executable, used for counterexamples by computation) and [Z] (the C++
    integral coefficient types, whose division truncates towards zero). *)
From Coq Require Export List Arith ZArith QArith Reals Lia Lra Bool.
Export ListNotations.
Global Open Scope nat_scope.

Class Num (K : Type) := {
  n0 : K;                 (* T(), empty_sum(T()) : stator/symbolic/empty_sum.hpp:12-13 *)
  n1 : K;
  nadd : K -> K -> K;
  nsub : K -> K -> K;
  nmul : K -> K -> K;
  ndiv : K -> K -> K;
  nopp : K -> K;
  neqb : K -> K -> bool;  (* == *)
  nltb : K -> K -> bool   (* <  *)
}.

Declare Scope num_scope.
Delimit Scope num_scope with num.
Infix "+!" := nadd (at level 50, left associativity) : num_scope.
Infix "-!" := nsub (at level 50, left associativity) : num_scope.
Infix "*!" := nmul (at level 40, left associativity) : num_scope.
Infix "/!" := ndiv (at level 40, left associativity) : num_scope.

Definition Reqb (x y : R) : bool := if Req_EM_T x y then true else false.
Definition Rltb (x y : R) : bool := if Rlt_dec x y then true else false.

Global Instance R_num : Num R :=
  {| n0 := 0%R; n1 := 1%R; nadd := Rplus; nsub := Rminus; nmul := Rmult;
     ndiv := Rdiv; nopp := Ropp; neqb := Reqb; nltb := Rltb |}.

Definition Qltb (x y : Q) : bool := negb (Qle_bool y x).

(* results are kept in lowest terms so that computed values can be compared *)
Definition Q_num : Num Q :=
  {| n0 := 0%Q; n1 := 1%Q;
     nadd := fun a b => Qred (Qplus a b); nsub := fun a b => Qred (Qminus a b);
     nmul := fun a b => Qred (Qmult a b); ndiv := fun a b => Qred (Qdiv a b);
     nopp := fun a => Qred (Qopp a); neqb := Qeq_bool; nltb := Qltb |}.

Definition Z_num : Num Z :=
  {| n0 := 0%Z; n1 := 1%Z; nadd := Z.add; nsub := Z.sub; nmul := Z.mul;
     ndiv := Z.quot; nopp := Z.opp; neqb := Z.eqb; nltb := Z.ltb |}.

Lemma Reqb_true x y : Reqb x y = true <-> x = y.
Proof. unfold Reqb; destruct (Req_EM_T x y); split; intros; congruence. Qed.
Lemma Reqb_false x y : Reqb x y = false <-> x <> y.
Proof. unfold Reqb; destruct (Req_EM_T x y); split; intros; congruence. Qed.
Lemma Rltb_true x y : Rltb x y = true <-> (x < y)%R.
Proof. unfold Rltb; destruct (Rlt_dec x y); split; intros; try congruence; lra. Qed.
Lemma Rltb_false x y : Rltb x y = false <-> (y <= x)%R.
Proof. unfold Rltb; destruct (Rlt_dec x y); split; intros; try congruence; lra. Qed.

Lemma Reqb_spec x y : reflect (x = y) (Reqb x y).
Proof. destruct (Reqb x y) eqn:E; constructor; [apply Reqb_true | apply Reqb_false]; exact E. Qed.
Lemma Rltb_spec x y : reflect (x < y)%R (Rltb x y).
Proof. destruct (Rltb x y) eqn:E; constructor;
  [apply Rltb_true; exact E | apply Rltb_false in E; lra]. Qed.

(** Conversion of a C++ size_t used in arithmetic. *)
Fixpoint nofnat {K} `{Num K} (n : nat) : K :=
  match n with
  | O => n0
  | S m => nadd (nofnat m) n1
  end.

(** Array access.  [get] is only used where the model's index arithmetic keeps
    the index in range; places where the C++ can leave the range use the
    checked accessors of Outcome-returning functions instead. *)
Definition get {K} `{Num K} (l : list K) (i : nat) : K := nth i l n0.

Fixpoint upd {A} (l : list A) (i : nat) (v : A) : list A :=
  match l, i with
  | [], _ => []
  | _ :: t, O => v :: t
  | h :: t, S j => h :: upd t j v
  end.

Definition modify {K} `{Num K} (l : list K) (i : nat) (f : K -> K) : list K :=
  upd l i (f (get l i)).

(** Counting loops: [for_up lo cnt] runs i = lo, lo+1, ..., lo+cnt-1;
    [for_down hi cnt] runs i = hi, hi-1, ..., hi-cnt+1. *)
Fixpoint for_up {S} (lo cnt : nat) (body : nat -> S -> S) (s : S) : S :=
  match cnt with
  | O => s
  | Datatypes.S c => for_up (Datatypes.S lo) c body (body lo s)
  end.

Fixpoint for_down {S} (hi cnt : nat) (body : nat -> S -> S) (s : S) : S :=
  match cnt with
  | O => s
  | Datatypes.S c => for_down (Nat.pred hi) c body (body hi s)
  end.

Lemma for_up_inv {S} (P : nat -> S -> Prop) body : forall cnt lo s,
  P lo s ->
  (forall i s, lo <= i < lo + cnt -> P i s -> P (Datatypes.S i) (body i s)) ->
  P (lo + cnt)%nat (for_up lo cnt body s).
Proof.
  induction cnt as [|c IH]; intros lo s H0 Hs; simpl.
  - rewrite Nat.add_0_r; exact H0.
  - replace (lo + Datatypes.S c)%nat with (Datatypes.S lo + c)%nat by lia.
    apply IH; [apply Hs; [lia|exact H0]|].
    intros i s' Hi; apply Hs; lia.
Qed.

(** Invariant rule for downward loops, indexed by the number of iterations done. *)
Lemma for_down_inv {S} (P : nat -> S -> Prop) body : forall cnt k hi s,
  P k s ->
  (forall j s, j < cnt -> P (k + j)%nat s -> P (Datatypes.S (k + j)) (body (hi - j)%nat s)) ->
  P (k + cnt)%nat (for_down hi cnt body s).
Proof.
  induction cnt as [|c IH]; intros k hi s H0 Hs; simpl.
  - rewrite Nat.add_0_r; exact H0.
  - replace (k + Datatypes.S c)%nat with (Datatypes.S k + c)%nat by lia.
    apply IH.
    + specialize (Hs 0%nat s). rewrite Nat.add_0_r, Nat.sub_0_r in Hs. apply Hs; [lia|exact H0].
    + intros j s' Hj HP.
      replace (Datatypes.S k + j)%nat with (k + Datatypes.S j)%nat in * by lia.
      replace (Nat.pred hi - j)%nat with (hi - Datatypes.S j)%nat by lia.
      apply Hs; [lia|exact HP].
Qed.

Lemma upd_length {A} (l : list A) i v : length (upd l i v) = length l.
Proof. revert i; induction l as [|h t IH]; intros [|i]; simpl; auto. Qed.

Lemma nth_upd {A} (l : list A) i j v d :
  nth j (upd l i v) d = if (Nat.eqb i j && Nat.ltb i (length l))%bool then v else nth j l d.
Proof.
  revert i j; induction l as [|h t IH]; intros i j; simpl.
  - rewrite Bool.andb_false_r. destruct j; reflexivity.
  - destruct i as [|i], j as [|j]; simpl; try reflexivity.
    rewrite IH. reflexivity.
Qed.

Lemma get_upd_eq {K} `{Num K} (l : list K) i v :
  (i < length l)%nat -> get (upd l i v) i = v.
Proof.
  intros Hi; unfold get; rewrite nth_upd, Nat.eqb_refl.
  apply Nat.ltb_lt in Hi; rewrite Hi; reflexivity.
Qed.

Lemma get_upd_neq {K} `{Num K} (l : list K) i j v :
  i <> j -> get (upd l i v) j = get l j.
Proof.
  intros Hij; unfold get; rewrite nth_upd.
  apply Nat.eqb_neq in Hij; rewrite Hij; reflexivity.
Qed.

Lemma get_overflow {K} `{Num K} (l : list K) i :
  (length l <= i)%nat -> get l i = n0.
Proof. intros; unfold get; apply nth_overflow; assumption. Qed.

Lemma upd_overflow {A} (l : list A) i v : (length l <= i)%nat -> upd l i v = l.
Proof.
  revert i; induction l as [|h t IH]; intros [|i] Hi; simpl in *; try reflexivity; try lia.
  rewrite IH; [reflexivity|lia].
Qed.

Lemma list_eq_get {K} `{Num K} (l m : list K) :
  length l = length m -> (forall i, (i < length l)%nat -> get l i = get m i) -> l = m.
Proof. intros Hl Hg. apply nth_ext with (d := n0) (d' := n0); assumption. Qed.

Lemma get_repeat {K} `{Num K} n i : get (repeat n0 n) i = n0.
Proof. unfold get. revert i; induction n; intros [|i]; simpl; auto. Qed.
