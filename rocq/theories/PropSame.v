(** What equality of expressions means (runtime.hpp:181-232, dict.hpp:87-108) and when
    equal expressions have equal hashes (runtime.hpp:433-459, dict.hpp:110-121). *)
From Coq Require Import String NArith List Permutation Lia Reals.
From Verif Require Import Outcome Num FloatModel ExprModel ExprSpec ExprBase ExprEq PropExpr PropFloatExpr.
Import ExprModel ListNotations.
Open Scope string_scope.
Open Scope nat_scope.

(** ** Specification *)
(** The same expression, up to the order in which the entries of dictionaries are
    listed.  [same n m]: the numbers [n] and [m] are not told apart. *)
Section Spec.
Context {K : Type}.
Variable same : K -> K -> Prop.
Inductive alike : expr K -> expr K -> Prop :=
| alike_const c d : same c d -> alike (EConst c) (EConst d)
| alike_var x : alike (EVar x) (EVar x)
| alike_un o a b : alike a b -> alike (EUn o a) (EUn o b)
| alike_bin o l r l' r' : alike l l' -> alike r r' -> alike (EBin o l r) (EBin o l' r')
| alike_arr xs ys : Forall2 alike xs ys -> alike (EArr xs) (EArr ys)
| alike_dict d d' e :
    Forall2 (fun p q => fst p = fst q /\ alike (snd p) (snd q)) d d' -> Permutation d' e ->
    alike (EDict d) (EDict e).

(** Dictionaries at corresponding places list their keys in the same order. *)
Fixpoint same_key_order (a b : expr K) : Prop :=
  match a, b with
  | EUn _ s, EUn _ t => same_key_order s t
  | EBin _ l r, EBin _ l' r' => same_key_order l l' /\ same_key_order r r'
  | EArr xs, EArr ys =>
      (fix go xs ys := match xs, ys with
                       | x :: xs, y :: ys => same_key_order x y /\ go xs ys
                       | _, _ => True end) xs ys
  | EDict d, EDict e =>
      (fix go (d e : list (string * expr K)) := match d, e with
                       | (k, x) :: d, (k', y) :: e => k = k' /\ same_key_order x y /\ go d e
                       | [], [] => True
                       | _, _ => False end) d e
  | _, _ => True
  end.
End Spec.

(** ** Proofs *)
Lemma forall2_len {A B} {R : A -> B -> Prop} {l l'} : Forall2 R l l' -> length l = length l'.
Proof. induction 1; cbn; congruence. Qed.
Section Proofs.
Context {K : Type} `{EN : ENum K}.

Lemma alike_of_eeqb : forall a b : expr K, dicts_ok a -> dicts_ok b -> eeqb a b = true ->
  alike (fun x y => neqb x y = true) a b.
Proof.
  induction a as [c|x|o a IHa|o l r IHl IHr|es IH|d IH] using expr_ind'; intros b Ha Hb H;
    destruct b as [c'|x'|o' a'|o' l' r'|es'|e]; try discriminate.
  - constructor. exact H.
  - simpl in H. apply String.eqb_eq in H as ->. constructor.
  - cbn [eeqb] in H. apply andb_true_iff in H as [H1 H2]. apply uop_eqb_iff in H1 as ->.
    constructor. apply IHa; auto.
  - cbn [eeqb] in H. rewrite !andb_true_iff, bop_eqb_iff in H. destruct H as (-> & H1 & H2).
    destruct Ha, Hb. constructor; auto.
  - rewrite eeqb_arr in H. apply dicts_ok_arr in Ha, Hb. constructor.
    revert IH Ha Hb. induction H; intros IH Ha Hb; constructor; inversion IH; inversion Ha; inversion Hb; subst; auto.
  - apply eeqb_dict in H as [Hl H]. apply dicts_ok_dict in Ha as [Na Ha]. apply dicts_ok_dict in Hb as [Nb Hb].
    assert (Hin : forall k w, dfind k e = Some w -> dicts_ok w).
    { intros k w Hw. apply dfind_in in Hw. rewrite Forall_forall in Hb. apply (Hb (k, w) Hw). }
    assert (X : exists d', Forall2 (fun p q => fst p = fst q /\ alike (fun x y => neqb x y = true) (snd p) (snd q)) d d'
                 /\ incl d' e /\ map fst d' = map fst d).
    { clear Hl Na. revert IH H Ha. induction d as [|(k & v) d IHd]; intros IH H Ha.
      - exists []. split; [constructor|]. split; [intros z []|reflexivity].
      - inversion IH as [|? ? I1 I2]; inversion H as [|? ? (w & Hw & E) H2]; inversion Ha as [|? ? A1 A2]; subst.
        destruct (IHd I2 H2 A2) as (d' & F & Hi & Hk). cbn [fst snd] in *.
        exists ((k, w) :: d'). split; [constructor; [split; [reflexivity|]|exact F]|].
        + apply I1; auto. exact (Hin _ _ Hw).
        + split; [intros z [<- | Hz]; [apply dfind_in, Hw|apply Hi, Hz]|]. cbn [map fst]. congruence. }
    destruct X as (d' & F & Hi & Hk). apply alike_dict with d'; [exact F|].
    apply NoDup_Permutation_bis.
    + apply (NoDup_map_inv fst). rewrite Hk. exact Na.
    + pose proof (forall2_len F). lia.
    + exact Hi.
Qed.

Lemma eeqb_of_alike : forall a b : expr K, dicts_ok b ->
  alike (fun x y => neqb x y = true) a b -> eeqb a b = true.
Proof.
  induction a as [c|x|o a IHa|o l r IHl IHr|es IH|d IH] using expr_ind'; intros b Hb H; inversion H; subst.
  - assumption.
  - cbn. apply String.eqb_refl.
  - cbn [eeqb]. rewrite (proj2 (uop_eqb_iff o o) eq_refl). apply IHa; auto.
  - destruct Hb. cbn [eeqb]. rewrite (proj2 (bop_eqb_iff o o) eq_refl), IHl, IHr; auto.
  - apply eeqb_arr. apply dicts_ok_arr in Hb.
    match goal with F : Forall2 _ es _ |- _ => clear H; rename F into H end.
    revert IH Hb. induction H; intros IH Hb; constructor; inversion IH; inversion Hb; subst; auto.
  - apply dicts_ok_dict in Hb as [Nb Hb]. apply eeqb_dict. 
    match goal with F : Forall2 _ d _, P : Permutation _ _ |- _ => rename F into HF; rename P into HP end.
    split; [rewrite (forall2_len HF); apply Permutation_length, HP|].
    assert (Hi : incl d' e) by (intros z Hz; eapply Permutation_in; eauto). clear HP H.
    revert IH. induction HF as [|(k & v) (k' & w) d d' [E A] HF IHF]; intros IH; constructor.
    + cbn [fst snd] in *. subst k'. exists w. split; [apply in_dfind; [exact Nb|apply Hi; left; reflexivity]|].
      inversion IH as [|? ? I1 I2]; subst. cbn [snd] in I1. apply I1; [|exact A].
      rewrite Forall_forall in Hb. apply (Hb (k, w)), Hi. left; reflexivity.
    + inversion IH; subst. apply IHF; auto. intros z Hz. apply Hi. right; exact Hz.
Qed.

Lemma ehash_same_order hstr hnum : (forall x y : K, neqb x y = true -> hnum x = hnum y) ->
  forall a b : expr K, dicts_ok a -> dicts_ok b -> eeqb a b = true -> same_key_order a b ->
  ehash hstr hnum a = ehash hstr hnum b.
Proof.
  intros Hnum.
  induction a as [c|x|o a IHa|o l r IHl IHr|es IH|d IH] using expr_ind'; intros b Ha Hb H S;
    destruct b as [c'|x'|o' a'|o' l' r'|es'|e]; try discriminate.
  - apply Hnum; exact H.
  - simpl in H. apply String.eqb_eq in H. congruence.
  - cbn [eeqb] in *. apply andb_true_iff in H as [H1 H2]. apply uop_eqb_iff in H1 as ->. cbn [ehash]. f_equal; auto.
  - cbn [eeqb] in *. rewrite !andb_true_iff, bop_eqb_iff in H. destruct H as (-> & H1 & H2).
    destruct S, Ha, Hb. cbn [ehash]. rewrite (IHl l'), (IHr r'); auto.
  - rewrite eeqb_arr in H. apply dicts_ok_arr in Ha, Hb. cbn [ehash]. f_equal. revert IH Ha Hb S.
    induction H; intros IH Ha Hb S; auto. inversion IH; inversion Ha; inversion Hb; subst.
    destruct S as [S1 S2]. cbn [map]. f_equal; auto.
  - apply eeqb_dict in H as [_ H]. apply dicts_ok_dict in Ha as [Na Ha]. apply dicts_ok_dict in Hb as [Nb Hb].
    cbn [ehash same_key_order] in *. generalize 16%N as s.
    (* the values found are the ones at the same place *)
    assert (Hv : forall k w, In (k, w) e -> dfind k e = Some w) by (intros; apply in_dfind; auto).
    assert (Hd : forall k w, In (k, w) e -> dicts_ok w) by (intros k w Hi; rewrite Forall_forall in Hb; apply (Hb (k, w) Hi)).
    clear Nb Hb Na. set (f := fun k => dfind k e) in *.
    change (Forall (fun kv => exists w, f (fst kv) = Some w /\ eeqb (snd kv) w = true) d) in H.
    change (forall k w, In (k, w) e -> f k = Some w) in Hv. clearbody f.
    revert e S Hv Hd. induction d as [|(k & v) d IHd]; intros [|(k' & w) e] S Hv Hd s; try contradiction; [reflexivity|].
    destruct S as (-> & S1 & S2). inversion IH as [|? ? I1 I2]; inversion Ha as [|? ? A1 A2]; inversion H as [|? ? (w' & Hw & E) H2']; subst.
    cbn [fst snd] in *. rewrite (Hv k' w) in Hw by (left; reflexivity). injection Hw as <-.
    rewrite (I1 w) by (auto; apply (Hd k' w); left; reflexivity).
    apply IHd; auto; intros ? ? Hi; [apply Hv; right; exact Hi|eapply Hd; right; exact Hi].
Qed.
End Proofs.

(** ** C30 *)
(** Two expressions over the reals are equal exactly when they are the same up to the
    order of dictionary entries. *)
Theorem C30_equal_iff : forall a b : expr R, dicts_ok a -> dicts_ok b ->
  (eeqb a b = true <-> alike eq a b).
Proof.
  intros a b Ha Hb.
  assert (X : forall a b : expr R, alike (fun x y => @neqb R (@enum_num R R_enum) x y = true) a b <-> alike eq a b).
  { clear. intros a b. split; revert b; induction a as [c|x|o a IHa|o l r IHl IHr|es IH|d IH] using expr_ind'; intros b H; inversion H; subst;
      [constructor; apply R_neqb_spec; auto|constructor|constructor; auto|constructor; auto|constructor| |
       constructor; apply R_neqb_spec; auto|constructor|constructor; auto|constructor; auto|constructor|];
      match goal with
      | F : Forall2 _ es ?ys |- Forall2 _ es ?ys => clear H; revert IH; induction F; intros IH; constructor; inversion IH; subst; auto
      | F : Forall2 _ d ?d', P : Permutation ?d' ?e |- _ =>
          apply alike_dict with d'; [|exact P]; clear H P; revert IH; induction F as [|? ? ? ? [? ?]]; intros IH; constructor; inversion IH; subst; auto
      end. }
  rewrite <- X. split; [apply alike_of_eeqb; auto|apply eeqb_of_alike; auto].
Qed.

(** Over doubles: the same, with numbers compared by ==. *)
Theorem C30_doubles_equal_iff : forall (M : libm) (a b : expr d64), dicts_ok a -> dicts_ok b ->
  (eeqb (EN := D_enum M) a b = true <-> alike (fun x y => d_eq x y = true) a b).
Proof.
  intros M a b Ha Hb. split; [apply (alike_of_eeqb (EN := D_enum M)); auto|apply (eeqb_of_alike (EN := D_enum M)); auto].
Qed.

(** Equal expressions whose dictionaries list their keys in the same order have equal
    hashes, for any hash functions of strings and numbers. *)
Theorem C30_hash_same_order : forall hstr hnum (a b : expr R), dicts_ok a -> dicts_ok b ->
  eeqb a b = true -> same_key_order a b -> ehash hstr hnum a = ehash hstr hnum b.
Proof.
  intros hstr hnum a b. apply (ehash_same_order (EN := R_enum)).
  intros x y E. apply R_neqb_spec in E. congruence.
Qed.
Theorem C30_doubles_hash_same_order : forall (M : libm) hstr (hnum : d64 -> N) (a b : expr d64),
  (forall x y, d_eq x y = true -> hnum x = hnum y) -> dicts_ok a -> dicts_ok b ->
  eeqb (EN := D_enum M) a b = true -> same_key_order a b -> ehash hstr hnum a = ehash hstr hnum b.
Proof. intros M hstr hnum a b Hh. apply (ehash_same_order (EN := D_enum M)). exact Hh. Qed.

(** {x: 1+z, y: {u: 2}} and {y: {u: 2}, x: 1+z} are equal; two dictionaries with the
    same order. *)
Definition C30_d1 : expr R := EDict [("x", EBin BAdd (EConst 1%R) (EVar "z")); ("y", EDict [("u", EConst 2%R)])].
Definition C30_d2 : expr R := EDict [("y", EDict [("u", EConst 2%R)]); ("x", EBin BAdd (EConst 1%R) (EVar "z"))].
Example C30_same_ex : dicts_ok C30_d1 /\ dicts_ok C30_d2 /\ eeqb C30_d1 C30_d2 = true /\ same_key_order C30_d1 C30_d1 /\
  ~ same_key_order C30_d1 C30_d2.
Proof.
  assert (A : dicts_ok C30_d1) by (cbn; repeat split; auto; repeat constructor; cbn; intuition discriminate).
  assert (B : dicts_ok C30_d2) by (cbn; repeat split; auto; repeat constructor; cbn; intuition discriminate).
  split; [exact A|]. split; [exact B|]. split; [|split].
  - apply C30_equal_iff; auto. unfold C30_d1, C30_d2.
    apply alike_dict with [("x", EBin BAdd (EConst 1%R) (EVar "z")); ("y", EDict [("u", EConst 2%R)])]; [|apply perm_swap].
    constructor; [split; [reflexivity|]|constructor; [split; [reflexivity|]|constructor]]; cbn [snd].
    + constructor; constructor; reflexivity.
    + apply alike_dict with [("u", EConst 2%R)]; [|apply Permutation_refl].
      constructor; [split; [reflexivity|]|constructor]. constructor. reflexivity.
  - cbn. tauto.
  - cbn. intros [E _]. discriminate.
Qed.
Print Assumptions C30_equal_iff.
Print Assumptions C30_doubles_equal_iff.
Print Assumptions C30_hash_same_order.
Print Assumptions C30_doubles_hash_same_order.

(** ** C53: a power of two arrays never ends *)
(** whatever the elements are: no expression is ever returned; if every element
    simplifies, the recursion has no end (whatever the fuel). *)
Lemma simp_array {K} {EN : ENum K} fuel (es : list (expr K)) :
  simp fuel (EArr es) = (do rs <- oseq (map (simplify fuel) es); Ret (Some (EArr rs))).
Proof. destruct fuel; reflexivity. Qed.
Lemma oseq_all {A} (l : list (outcome A)) : (forall x, In x l -> exists a, x = Ret a) -> exists rs, oseq l = Ret rs.
Proof.
  induction l as [|x l IH]; intros H; [exists []; reflexivity|].
  destruct (H x) as [a ->]; [left; reflexivity|]. destruct IH as [rs E]; [intros y Hy; apply H; right; exact Hy|].
  exists (a :: rs). cbn. rewrite E. reflexivity.
Qed.
Theorem C53_array_power_endless : forall (K : Type) (EN : ENum K) (xs ys : list (expr K)),
  (forall fuel e, simplify fuel (EBin BPow (EArr xs) (EArr ys)) <> Ret e) /\
  ((forall x fuel, In x (xs ++ ys) -> exists x', simplify fuel x = Ret x') ->
   forall fuel, simplify fuel (EBin BPow (EArr xs) (EArr ys)) = UB).
Proof.
  intros K EN xs ys.
  assert (E : forall fuel, simp fuel (EBin BPow (EArr xs) (EArr ys)) =
    (do l <- oseq (map (simplify fuel) xs); do r <- oseq (map (simplify fuel) ys); UB)).
  { intros fuel. rewrite simp_unfold. cbn [simp_body]. rewrite !simp_array.
    destruct (oseq (map (simplify fuel) xs)); cbn [obind]; try reflexivity.
    destruct (oseq (map (simplify fuel) ys)); reflexivity. }
  split.
  - intros fuel e. unfold simplify at 1, or_self. rewrite E.
    destruct (oseq (map (simplify fuel) xs)); cbn [obind]; try discriminate.
    destruct (oseq (map (simplify fuel) ys)); cbn [obind]; discriminate.
  - intros H fuel. unfold simplify at 1, or_self. rewrite E.
    destruct (oseq_all (map (simplify fuel) xs)) as [l ->].
    { intros m Hm. apply in_map_iff in Hm as (x & <- & Hx). apply H, in_or_app; auto. }
    destruct (oseq_all (map (simplify fuel) ys)) as [r ->].
    { intros m Hm. apply in_map_iff in Hm as (x & <- & Hx). apply H, in_or_app; auto. }
    reflexivity.
Qed.
Print Assumptions C53_array_power_endless.
