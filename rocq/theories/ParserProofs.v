(** The parser terminates, and reads exactly the well grouped sentences. *)
From Coq Require Import String Ascii NArith.
From Verif Require Import Outcome Num ExprModel ExprBase ParserModel ParserSpec ParserBase.
Open Scope nat_scope.
Open Scope string_scope.

Section CstInd.
Variable P : cst -> Prop.
Hypothesis Hnum : forall t, P (CNum t).
Hypothesis Hvar : forall t, P (CVar t).
Hypothesis Hpar : forall a, P a -> P (CPar a).
Hypothesis Hpos : forall a, P a -> P (CPos a).
Hypothesis Hneg : forall a, P a -> P (CNeg a).
Hypothesis Hfun : forall o a, P a -> P (CFun o a).
Hypothesis Hbin : forall o l r, P l -> P r -> P (CBin o l r).
Hypothesis Harr : forall es, Forall P es -> P (CArr es).
Hypothesis Hdict : forall d, Forall (fun p => P (fst p) /\ P (snd p)) d -> P (CDict d).
Fixpoint cst_ind' (c : cst) : P c :=
  match c with
  | CNum t => Hnum t
  | CVar t => Hvar t
  | CPar a => Hpar a (cst_ind' a)
  | CPos a => Hpos a (cst_ind' a)
  | CNeg a => Hneg a (cst_ind' a)
  | CFun o a => Hfun o a (cst_ind' a)
  | CBin o l r => Hbin o l r (cst_ind' l) (cst_ind' r)
  | CArr es => Harr es ((fix go (l : list cst) : Forall P l :=
      match l with [] => Forall_nil _ | x :: t => Forall_cons x (cst_ind' x) (go t) end) es)
  | CDict d => Hdict d ((fix go (l : list (cst * cst)) : Forall (fun p => P (fst p) /\ P (snd p)) l :=
      match l with [] => Forall_nil _
      | x :: t => Forall_cons x (conj (cst_ind' (fst x)) (cst_ind' (snd x))) (go t) end) d)
  end.
End CstInd.

Lemma fold_and {A} (Q : A -> Prop) l : fold_right (fun c P => Q c /\ P) True l <-> Forall Q l.
Proof.
  induction l; simpl; split; intros H; auto.
  - destruct H. constructor; auto. now apply IHl.
  - inversion H; subst. split; auto. now apply IHl.
Qed.

(** ** Binding powers as the parser compares them *)
Definition nb (t : string) : option Z :=
  if String.eqb t "" then Some (-1)%Z else option_map rop_lbp (right_op t).
Definition Mx (c : cst) : Z := match c with CBin o _ _ => nbp o | _ => INT_MAX end.
Fixpoint edge (c : cst) (b : Z) : Prop :=
  match c with
  | CBin o l r => wrapped o = false -> ((b < rbp o \/ Mx r < b) /\ edge r b)%Z
  | CPos a | CNeg a => ((b < sign_bp \/ Mx a < b) /\ edge a b)%Z
  | CFun _ a => ((b < INT_MAX \/ Mx a < b) /\ edge a b)%Z
  | _ => True
  end.
Definition rlev (o : bop) : Z := if wrapped o then 0%Z else rbp o.
Fixpoint good (m : Z) (c : cst) : Prop :=
  match c with
  | CNum _ | CVar _ => True
  | CPar a => good 0 a
  | CPos a | CNeg a => good sign_bp a
  | CFun _ a => good INT_MAX a
  | CBin o l r => (m <= lbp o <= Mx l)%Z /\ good m l /\ edge l (lbp o) /\ good (rlev o) r
  | CArr es => fold_right (fun c P => good 0 c /\ P) True es
  | CDict d => fold_right (fun p P => (good 0 (fst p) /\ good 0 (snd p)) /\ P) True d
  end.

Lemma lbp_pos o : (0 < lbp o < 100)%Z.
Proof. destruct o; simpl; lia. Qed.
Lemma rbp_pos o : (0 < rbp o < 100)%Z.
Proof. destruct o; cbv; split; reflexivity. Qed.
Lemma nbp_pos o : (0 < nbp o < 100)%Z.
Proof. destruct o; cbv; split; reflexivity. Qed.
Lemma rlev_nonneg o : (0 <= rlev o)%Z.
Proof. unfold rlev. destruct (wrapped o); [lia|]. pose proof (rbp_pos o); lia. Qed.
Lemma sign_bp_val : sign_bp = 21%Z. Proof. reflexivity. Qed.
Lemma imax_val : INT_MAX = 2147483647%Z. Proof. reflexivity. Qed.

Lemma edge_halt c : edge c (-1).
Proof.
  induction c; simpl; auto; try (split; auto; left; rewrite ?sign_bp_val, ?imax_val; lia).
  intros _. split; auto. left. pose proof (rbp_pos o). lia.
Qed.

Lemma nb_halt t : In t [")"; ","; "]"; ":"; "}"] -> nb t = Some (-1)%Z.
Proof. simpl. intros H. repeat destruct H as [<-|H]; try reflexivity. contradiction. Qed.
Lemma nb_op o : nb (op_tok o) = Some (lbp o).
Proof. destruct o; reflexivity. Qed.
Lemma nb_bound t b : nb t = Some b -> (-1 <= b < 100)%Z.
Proof.
  unfold nb. destruct (String.eqb t ""); [intros [= <-]; lia|].
  destruct (right_op t) as [[o|]|]; simpl; intros [= <-]; [|lia]. pose proof (lbp_pos o); lia.
Qed.

Section Generic.
Context {K : Type} `{EN : ENum K}.
Notation expr := (expr K).
Variable read : string -> K.
Variable show : K -> string.
Notation pexpr := (pexpr read show).
Notation ptoken := (ptoken read show).
Notation ploop := (ploop read show).
Notation parr := (parr read show).
Notation pdict := (pdict read show).
Notation denote := (denote read).
Notation sentence := (sentence read).

(** ** Termination *)
Definition slen (s : pstate) : nat := String.length (snd s) + (if String.eqb (cur s) "" then 0 else 1).
Definition nofuel {A} (x : outcome A) : Prop := match x with Fuel => False | _ => True end.

Lemma obind_nofuel {A B} (x : outcome A) (k : A -> outcome B) :
  nofuel x -> (forall a, x = Ret a -> nofuel (k a)) -> nofuel (obind x k).
Proof. destruct x; simpl; auto. Qed.

Lemma cfloat_defined n : forall d e s, String.length s <= n -> cfloat d e s <> Fuel /\ cfloat d e s <> UB.
Proof.
  assert (O : forall c x, x <> Fuel /\ x <> UB -> ocons c x <> Fuel /\ ocons c x <> UB).
  { intros c [| | |]; simpl; unfold ocons; simpl; intuition congruence. }
  induction n as [|n IH]; intros d e s Hn; destruct s as [|c t]; simpl in *; try (split; discriminate); try lia.
  destruct (Ascii.eqb c "."). { destruct (negb d && negb e)%bool; [apply O, IH; lia|split; discriminate]. }
  destruct (Ascii.eqb c "e" || Ascii.eqb c "E")%bool.
  - destruct e; [split; discriminate|]. destruct t as [|g u]; [split; discriminate|].
    destruct (Ascii.eqb g "+" || Ascii.eqb g "-")%bool.
    + destruct u as [|v u]; [split; discriminate|]. destruct (isdigit v); [|split; discriminate].
      simpl in Hn. apply O, O, IH. simpl. lia.
    + destruct (isdigit g); [|split; discriminate]. apply O, IH. simpl in *. lia.
  - destruct (isdigit c); [apply O, IH; lia|split; discriminate].
Qed.

Lemma consume_defined s : consume s <> Fuel /\ consume s <> UB.
Proof.
  clear read show EN K. unfold consume. destruct (skip_spaces s) as [|c t]; [split; discriminate|].
  destruct (isdigit c).
  { pose proof (cfloat_defined (String.length t) false false t (le_n _)) as H.
    unfold ocons. destruct (cfloat false false t); simpl; intuition congruence. }
  destruct (isalpha c); [destruct (span_alpha t); split; discriminate|].
  match goal with |- context [let (_, _) := ?X in _] => destruct X as [tok r] end.
  destruct (right_op tok), (left_op tok); split; discriminate.
Qed.

Lemma consume_len s s1 : consume s = Ret s1 -> slen s1 <= String.length s.
Proof.
  destruct s1 as [t rest]. intros H. apply consume_sound in H. unfold slen, cur. simpl.
  destruct H as [(-> & -> & _)|(N & _ & _ & n & ->)].
  - simpl. lia.
  - destruct (String.eqb_spec t ""); [congruence|]. rewrite !slen_app. destruct t; [congruence|]. simpl. lia.
Qed.

Lemma adv_len s s1 : cur s <> "" -> adv s = Ret s1 -> slen s1 < slen s.
Proof.
  intros N H. apply consume_len in H. unfold slen at 2.
  destruct (String.eqb_spec (cur s) ""); [congruence|]. lia.
Qed.

Lemma adv_nofuel s : nofuel (adv s).
Proof. unfold adv. destruct (consume_defined (snd s)). destruct (consume (snd s)); simpl; auto. Qed.

Lemma expect_nofuel t s : nofuel (expect t s).
Proof. unfold expect. destruct (String.eqb (cur s) t); [apply adv_nofuel|exact I]. Qed.

Lemma expect_ret t s s1 : expect t s = Ret s1 -> cur s = t /\ adv s = Ret s1.
Proof. unfold expect. destruct (String.eqb_spec (cur s) t); [auto|discriminate]. Qed.

Lemma expect_len t s s1 : t <> "" -> expect t s = Ret s1 -> slen s1 < slen s.
Proof. intros N H. apply expect_ret in H. destruct H as [E H]. eapply adv_len; eauto. congruence. Qed.

Lemma oseq_nofuel {A} (l : list (outcome A)) : Forall nofuel l -> nofuel (oseq l).
Proof.
  induction 1 as [|x l Hx H IH]; simpl; auto. destruct x; simpl in *; auto.
  destruct (oseq l); simpl in *; auto.
Qed.

Lemma ebp_nofuel (e : expr) : nofuel (ebp e).
Proof. destruct e; exact I. Qed.

Lemma repr_nofuel fp (e : expr) : nofuel (repr show fp e).
Proof.
  induction e using expr_ind'; simpl; auto.
  - apply obind_nofuel; auto. intros. apply obind_nofuel; [apply ebp_nofuel|]. intros; exact I.
  - repeat (apply obind_nofuel; [first [apply ebp_nofuel|assumption]|intros]). exact I.
  - apply obind_nofuel; [|intros; exact I]. apply oseq_nofuel.
    rewrite Forall_map. assumption.
  - apply obind_nofuel; [|intros; exact I]. apply oseq_nofuel.
    rewrite Forall_map. eapply Forall_impl; [|eassumption]. intros p Hp. simpl in Hp |- *.
    apply obind_nofuel; auto. intros; exact I.
Qed.

(** [fin k x]: x is not out of fuel, and a returned state has fewer than k bytes
    to go. *)
Definition fin (k : nat) (x : outcome (expr * pstate)) : Prop :=
  match x with Fuel => False | Ret p => slen (snd p) < k | _ => True end.

Lemma fin_bind {A} k (x : outcome A) (f : A -> outcome (expr * pstate)) :
  nofuel x -> (forall a, x = Ret a -> fin k (f a)) -> fin k (obind x f).
Proof. destruct x; simpl; auto. Qed.
Lemma fin_nofuel k x : fin k x -> nofuel x.
Proof. destruct x; simpl; auto. Qed.
Lemma fin_le k k' x : k <= k' -> fin k x -> fin k' x.
Proof. destruct x; simpl; auto. lia. Qed.
Lemma fin_ret k x p : fin k x -> x = Ret p -> slen (snd p) < k.
Proof. intros H ->. exact H. Qed.

Lemma terminates n :
  (forall m s, 3 * slen s + 3 <= n -> fin (slen s) (pexpr n m s)) /\
  (forall s, 3 * slen s + 2 <= n -> fin (slen s) (ptoken n s)) /\
  (forall m M t s, 3 * slen s + 1 <= n -> fin (S (slen s)) (ploop n m M t s)) /\
  (forall acc s, 3 * slen s + 4 <= n -> fin (slen s) (parr n acc s)) /\
  (forall acc s, 3 * slen s + 4 <= n -> fin (slen s) (pdict n acc s)).
Proof.
  induction n as [|n (IHe & IHt & IHl & IHa & IHd)].
  { repeat split; intros; lia. }
  repeat split; intros.
  - simpl. pose proof (IHt s ltac:(lia)) as F. apply fin_bind; [eapply fin_nofuel; eauto|].
    intros p E. pose proof (fin_ret _ _ _ F E). eapply fin_le; [|apply IHl; lia]. lia.
  - simpl. apply fin_bind; [apply adv_nofuel|]. intros s1 A.
    destruct (String.eqb_spec (cur s) ""); [exact I|]. pose proof (adv_len _ _ n0 A) as L.
    destruct (starts_digit (cur s)); [exact L|].
    assert (X : forall m, fin (slen s) (pexpr n m s1)).
    { intros m. eapply fin_le; [|apply IHe; lia]. lia. }
    destruct (left_op (cur s)) as [[| | | | |o]|]; auto.
    + apply fin_bind; [eapply fin_nofuel; apply X|]. intros p E. apply (fin_ret _ _ _ (X sign_bp) E).
    + apply fin_bind; [eapply fin_nofuel; apply X|]. intros p E. pose proof (fin_ret _ _ _ (X 0%Z) E).
      apply fin_bind; [apply expect_nofuel|]. intros s2 E2. apply expect_len in E2; [|discriminate].
      simpl. lia.
    + destruct (String.eqb_spec (cur s1) "]").
      * apply fin_bind; [apply adv_nofuel|]. intros s2 E2. apply adv_len in E2; [|rewrite e; discriminate].
        simpl. lia.
      * eapply fin_le; [|apply IHa; lia]. lia.
    + destruct (String.eqb_spec (cur s1) "}").
      * apply fin_bind; [apply adv_nofuel|]. intros s2 E2. apply adv_len in E2; [|rewrite e; discriminate].
        simpl. lia.
      * eapply fin_le; [|apply IHd; lia]. lia.
    + apply fin_bind; [eapply fin_nofuel; apply X|]. intros p E. apply (fin_ret _ _ _ (X INT_MAX) E).
    + destruct (all_alpha (cur s)); [exact L|exact I].
  - simpl. destruct (String.eqb_spec (cur s) ""); [simpl; lia|].
    destruct (right_op (cur s)) as [r|]; [|exact I].
    destruct (Z.ltb (rop_lbp r) m || Z.ltb M (rop_lbp r))%bool; [simpl; lia|].
    apply fin_bind; [apply adv_nofuel|]. intros s1 A. pose proof (adv_len _ _ n0 A) as L.
    destruct r as [o|]; [|exact I].
    assert (X : forall m, fin (slen s1) (pexpr n m s1)) by (intros; apply IHe; lia).
    destruct (wrapped o) eqn:W.
    + apply fin_bind; [eapply fin_nofuel; apply X|]. intros p E. pose proof (fin_ret _ _ _ (X 0%Z) E).
      apply fin_bind; [apply expect_nofuel|]. intros s2 E2.
      apply expect_len in E2; [|destruct o; discriminate].
      eapply fin_le; [|apply IHl; lia]. lia.
    + apply fin_bind; [eapply fin_nofuel; apply X|]. intros p E. pose proof (fin_ret _ _ _ (X (rbp o)) E).
      eapply fin_le; [|apply IHl; lia]. lia.
  - simpl. pose proof (IHe 0%Z s ltac:(lia)) as F. apply fin_bind; [eapply fin_nofuel; eauto|].
    intros p E. pose proof (fin_ret _ _ _ F E).
    destruct (String.eqb (cur (snd p)) "]").
    + apply fin_bind; [apply expect_nofuel|]. intros s2 E2. apply expect_len in E2; [|discriminate]. simpl. lia.
    + apply fin_bind; [apply expect_nofuel|]. intros s2 E2. apply expect_len in E2; [|discriminate].
      eapply fin_le; [|apply IHa; lia]. lia.
  - simpl. pose proof (IHe 0%Z s ltac:(lia)) as F. apply fin_bind; [eapply fin_nofuel; eauto|].
    intros p E. pose proof (fin_ret _ _ _ F E).
    assert (R : forall k : expr, fin (slen s) (do _m <- repr show false k; Throw)).
    { intros k. apply fin_bind; [apply repr_nofuel|]. intros; exact I. }
    destruct (fst p) as [c|x|o a|o l r|es|d]; auto.
    apply fin_bind; [apply expect_nofuel|]. intros s2 E2. apply expect_len in E2; [|discriminate].
    pose proof (IHe 0%Z s2 ltac:(lia)) as F2. apply fin_bind; [eapply fin_nofuel; eauto|].
    intros q Eq. pose proof (fin_ret _ _ _ F2 Eq).
    destruct (String.eqb (cur (snd q)) "}").
    + apply fin_bind; [apply expect_nofuel|]. intros s3 E3. apply expect_len in E3; [|discriminate]. simpl. lia.
    + apply fin_bind; [apply expect_nofuel|]. intros s3 E3. apply expect_len in E3; [|discriminate].
      eapply fin_le; [|apply IHd; lia]. lia.
Qed.

Lemma pexpr_fuel s st : consume s = Ret st -> pexpr (parse_fuel s) 0 st <> Fuel.
Proof.
  intros C. pose proof (consume_len _ _ C) as L.
  destruct (terminates (parse_fuel s)) as (H & _). specialize (H 0%Z st).
  unfold parse_fuel in *. intros E. rewrite E in H. apply H. lia.
Qed.

(** ** More fuel changes nothing *)
Definition le_out {A} (x y : outcome A) : Prop := x <> Fuel -> y = x.
Lemma le_out_refl {A} (x : outcome A) : le_out x x. Proof. intros _; reflexivity. Qed.
Lemma le_bind {A B} (x y : outcome A) (f g : A -> outcome B) :
  le_out x y -> (forall a, le_out (f a) (g a)) -> le_out (obind x f) (obind y g).
Proof.
  intros H F N. destruct x; simpl in *; try (rewrite H by discriminate; simpl; auto).
  - now apply F.
  - congruence.
Qed.

Lemma mono n :
  (forall m s, le_out (pexpr n m s) (pexpr (S n) m s)) /\
  (forall s, le_out (ptoken n s) (ptoken (S n) s)) /\
  (forall m M t s, le_out (ploop n m M t s) (ploop (S n) m M t s)) /\
  (forall acc s, le_out (parr n acc s) (parr (S n) acc s)) /\
  (forall acc s, le_out (pdict n acc s) (pdict (S n) acc s)).
Proof.
  induction n as [|n (IHe & IHt & IHl & IHa & IHd)].
  { repeat split; intros; intros H; exfalso; apply H; reflexivity. }
  repeat split; intros.
  - apply (le_bind (ptoken n s) (ptoken (S n) s)); [apply IHt|intros; apply IHl].
  - change (le_out (ptoken (S n) s) (ptoken (S (S n)) s)).
    cbn [ParserModel.ptoken]. apply le_bind; [apply le_out_refl|]. intros s1.
    destruct (String.eqb (cur s) ""); [apply le_out_refl|].
    destruct (starts_digit (cur s)); [apply le_out_refl|].
    destruct (left_op (cur s)) as [[| | | | |o]|].
    + apply IHe.
    + apply (le_bind (pexpr n sign_bp s1) (pexpr (S n) sign_bp s1)); auto. intros; apply le_out_refl.
    + apply (le_bind (pexpr n 0 s1) (pexpr (S n) 0 s1)); auto. intros; apply le_out_refl.
    + destruct (String.eqb (cur s1) "]"); [apply le_out_refl|apply IHa].
    + destruct (String.eqb (cur s1) "}"); [apply le_out_refl|apply IHd].
    + apply (le_bind (pexpr n INT_MAX s1) (pexpr (S n) INT_MAX s1)); auto. intros; apply le_out_refl.
    + apply le_out_refl.
  - change (le_out (ploop (S n) m M t s) (ploop (S (S n)) m M t s)).
    cbn [ParserModel.ploop]. destruct (String.eqb (cur s) ""); [apply le_out_refl|].
    destruct (right_op (cur s)) as [r|]; [|apply le_out_refl].
    destruct (Z.ltb (rop_lbp r) m || Z.ltb M (rop_lbp r))%bool; [apply le_out_refl|].
    apply le_bind; [apply le_out_refl|]. intros s1. destruct r as [o|]; [|apply le_out_refl].
    destruct (wrapped o).
    + apply (le_bind (pexpr n 0 s1) (pexpr (S n) 0 s1)); auto. intros p.
      apply le_bind; [apply le_out_refl|]. intros; apply IHl.
    + apply (le_bind (pexpr n (rbp o) s1) (pexpr (S n) (rbp o) s1)); [apply IHe|intros; apply IHl].
  - change (le_out (parr (S n) acc s) (parr (S (S n)) acc s)).
    cbn [ParserModel.parr].
    apply (le_bind (pexpr n 0 s) (pexpr (S n) 0 s)); auto. intros p.
    destruct (String.eqb (cur (snd p)) "]"); [apply le_out_refl|].
    apply le_bind; [apply le_out_refl|]. intros; apply IHa.
  - change (le_out (pdict (S n) acc s) (pdict (S (S n)) acc s)).
    cbn [ParserModel.pdict].
    apply (le_bind (pexpr n 0 s) (pexpr (S n) 0 s)); auto. intros p.
    destruct (fst p) as [c|x|o a|o l r|es|d]; try apply le_out_refl.
    apply le_bind; [apply le_out_refl|]. intros s2.
    apply (le_bind (pexpr n 0 s2) (pexpr (S n) 0 s2)); auto. intros q.
    destruct (String.eqb (cur (snd q)) "}"); [apply le_out_refl|].
    apply le_bind; [apply le_out_refl|]. intros; apply IHd.
Qed.

Lemma pexpr_more n k m s : pexpr n m s <> Fuel -> pexpr (k + n) m s = pexpr n m s.
Proof.
  intros H. induction k; auto. rewrite <- IHk. apply (proj1 (mono (k + n))). now rewrite IHk.
Qed.
End Generic.
