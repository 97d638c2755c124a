(** Expressions are graphs of shared, reference-counted nodes.  Here every node
    carries the address of its object, and comparison takes the shortcuts of the
    code: two nodes that are the same object are equal without looking inside. *)
From Coq Require Import String.
From Verif Require Import Outcome Num ExprModel ExprSpec ExprBase ExprEq.
Open Scope nat_scope.

(** ** Model *)
(** an expression whose nodes have addresses (runtime.hpp:139, std::shared_ptr<RTBase>) *)
Inductive aexpr (K : Type) : Type :=
| AConst (p : nat) (c : K)
| AVar (p : nat) (x : string)
| AUn (p : nat) (o : uop) (a : aexpr K)
| ABin (p : nat) (o : bop) (l r : aexpr K)
| AArr (p : nat) (es : list (aexpr K))
| ADict (p : nat) (d : list (string * aexpr K)).
Arguments AConst {K}. Arguments AVar {K}. Arguments AUn {K}. Arguments ABin {K}. Arguments AArr {K}. Arguments ADict {K}.

Definition address {K} (e : aexpr K) : nat :=
  match e with AConst p _ | AVar p _ | AUn p _ _ | ABin p _ _ _ | AArr p _ | ADict p _ => p end.
(** the tree without the addresses *)
Fixpoint tree {K} (e : aexpr K) : expr K :=
  match e with
  | AConst _ c => EConst c
  | AVar _ x => EVar x
  | AUn _ o a => EUn o (tree a)
  | ABin _ o l r => EBin o (tree l) (tree r)
  | AArr _ es => EArr (map tree es)
  | ADict _ d => EDict (map (fun kv => (fst kv, tree (snd kv))) d)
  end.
(** operator== with the shortcuts: variable_rt.hpp:50-53, unary_ops_rt.hpp:38-41,
    binary_ops_rt.hpp:37-40, dict.hpp:53-57; constants (constants_rt.hpp:32-40) and
    arrays (array_rt.hpp:53-56) have none, nor has Expr (runtime.hpp:191). *)
Fixpoint aeqb {K} `{EN : ENum K} (a b : aexpr K) {struct a} : bool :=
  match a with
  | AConst _ c => match b with AConst _ d => neqb c d | _ => false end
  | AVar p x => match b with AVar q y => Nat.eqb p q || String.eqb x y | _ => false end
  | AUn p o s => match b with AUn q o' t => uop_eqb o o' && (Nat.eqb p q || aeqb s t) | _ => false end
  | ABin p o l r =>
      match b with ABin q o' l' r' => bop_eqb o o' && (Nat.eqb p q || (aeqb l l' && aeqb r r')) | _ => false end
  | AArr _ xs =>
      match b with
      | AArr _ ys =>
          (fix leq (xs ys : list (aexpr K)) : bool :=
             match xs, ys with
             | [], [] => true
             | x :: xs, y :: ys => aeqb x y && leq xs ys
             | _, _ => false
             end) xs ys
      | _ => false
      end
  | ADict p d =>
      match b with
      | ADict q e =>
          Nat.eqb p q ||
          (Nat.eqb (List.length d) (List.length e) &&
           (fix deq (d : list (string * aexpr K)) : bool :=
              match d with
              | [] => true
              | (k, v) :: t =>
                  match dfind k e with
                  | Some w => aeqb v w && deq t
                  | None => false
                  end
              end) d)
      | _ => false
      end
  end.

(** ** Specification: one address, one object *)
Inductive node_of {K} : aexpr K -> aexpr K -> Prop :=
| node_self e : node_of e e
| node_un s p o a : node_of s a -> node_of s (AUn p o a)
| node_l s p o l r : node_of s l -> node_of s (ABin p o l r)
| node_r s p o l r : node_of s r -> node_of s (ABin p o l r)
| node_arr s p es e : In e es -> node_of s e -> node_of s (AArr p es)
| node_dict s p d k v : In (k, v) d -> node_of s v -> node_of s (ADict p d).
Definition one_memory {K} (a b : aexpr K) : Prop :=
  forall s t, node_of s a -> node_of t b -> address s = address t -> s = t.

(** ** Proofs *)
Section Share.
Context {K : Type} `{EN : ENum K}.

Lemma aexpr_ind' (P : aexpr K -> Prop) :
  (forall p c, P (AConst p c)) -> (forall p x, P (AVar p x)) ->
  (forall p o a, P a -> P (AUn p o a)) -> (forall p o l r, P l -> P r -> P (ABin p o l r)) ->
  (forall p es, Forall P es -> P (AArr p es)) ->
  (forall p d, Forall (fun kv => P (snd kv)) d -> P (ADict p d)) -> forall e, P e.
Proof.
  intros H1 H2 H3 H4 H5 H6. fix IH 1. intros [p c|p x|p o a|p o l r|p es|p d].
  - apply H1.
  - apply H2.
  - apply H3, IH.
  - apply H4; apply IH.
  - apply H5. induction es as [|e es IHes]; constructor; [apply IH|exact IHes].
  - apply H6. induction d as [|[k v] d IHd]; constructor; [apply IH|exact IHd].
Qed.

Lemma dfind_tree k (d : list (string * aexpr K)) :
  dfind k (map (fun kv => (fst kv, tree (snd kv))) d) = option_map tree (dfind k d).
Proof. induction d as [|(y & v) d IH]; [reflexivity|]. cbn. destruct (String.eqb k y); auto. Qed.

(** The shortcuts change no result when no constant differs from itself. *)
Lemma aeqb_tree (a : aexpr K) : dicts_ok (tree a) -> (forall c, In c (constants (tree a)) -> neqb c c = true) ->
  forall b, one_memory a b -> aeqb a b = eeqb (tree a) (tree b).
Proof.
  induction a as [p c|p x|p o a IHa|p o l r IHl IHr|p es IH|p d IH] using aexpr_ind'; intros Hd Hc b M;
    pose proof (proj2 (eeqb_refl_iff _ Hd) Hc) as Rf.
  - destruct b; reflexivity.
  - destruct b as [q c|q y|q o' s|q o' l' r'|q ys|q e]; try reflexivity. cbn [aeqb tree eeqb].
    destruct (Nat.eqb_spec p q) as [-> | _]; [|reflexivity].
    assert (E : AVar q x = AVar q y) by (apply M; constructor). injection E as <-. rewrite String.eqb_refl. reflexivity.
  - destruct b as [q c|q y|q o' s|q o' l' r'|q ys|q e]; try reflexivity. cbn [aeqb tree eeqb].
    destruct (Nat.eqb_spec p q) as [-> | _].
    + assert (E : AUn q o a = AUn q o' s) by (apply M; constructor). injection E as <- <-.
      cbn [tree eeqb] in Rf. apply andb_true_iff in Rf as (R1 & R2). rewrite R1, R2. reflexivity.
    + rewrite IHa; auto. intros s' t' Hs Ht. apply M; constructor; auto.
  - destruct b as [q c|q y|q o' s|q o' l' r'|q ys|q e]; try reflexivity. cbn [aeqb tree eeqb].
    destruct (Nat.eqb_spec p q) as [-> | _].
    + assert (E : ABin q o l r = ABin q o' l' r') by (apply M; constructor). injection E as <- <- <-.
      cbn [tree eeqb] in Rf. apply andb_true_iff in Rf as (R1 & R2). rewrite R1, R2. reflexivity.
    + destruct Hd as (Hl & Hr). cbn [tree constants] in Hc.
      rewrite IHl, IHr; auto.
      * intros c0 Hi. apply Hc, in_or_app. auto.
      * intros s' t' Hs Ht. apply M; [apply node_r|apply node_r]; auto.
      * intros c0 Hi. apply Hc, in_or_app. auto.
      * intros s' t' Hs Ht. apply M; [apply node_l|apply node_l]; auto.
  - destruct b as [q c|q y|q o' s|q o' l' r'|q ys|q e]; try reflexivity. cbn [aeqb tree eeqb].
    assert (M' : forall x y, In x es -> In y ys -> one_memory x y).
    { intros x y Hx Hy s t Hs Ht. apply M; [eapply node_arr|eapply node_arr]; eauto. }
    cbn [tree] in Hd. apply dicts_ok_arr in Hd. cbn [tree constants] in Hc. clear M Rf.
    revert ys M'. induction es as [|x es IHes]; intros [|y ys] M'; try reflexivity. cbn [map].
    inversion IH as [|? ? Ix Ies]; inversion Hd as [|? ? Hx Hes]; subst. cbn [map flat_map] in Hc.
    rewrite Ix; [|exact Hx| |apply M'; left; reflexivity].
    + f_equal. apply IHes; auto.
      * intros c Hi. apply Hc, in_or_app. auto.
      * intros x' y' Hx' Hy'. apply M'; right; auto.
    + intros c Hi. apply Hc, in_or_app. auto.
  - destruct b as [q c|q y|q o' s|q o' l' r'|q ys|q e]; try reflexivity. cbn [aeqb tree].
    destruct (Nat.eqb_spec p q) as [-> | _].
    + assert (E : ADict q d = ADict q e) by (apply M; constructor). injection E as <-. cbn [orb]. symmetry. exact Rf.
    + cbn [orb eeqb]. rewrite !map_length. f_equal.
      assert (M' : forall k x k' y, In (k, x) d -> In (k', y) e -> one_memory x y).
      { intros k x k' y Hx Hy s t Hs Ht. apply M; [eapply node_dict|eapply node_dict]; eauto. }
      cbn [tree] in Hd. apply dicts_ok_dict in Hd as (_ & Hd). cbn [tree constants] in Hc. clear M Rf.
      induction d as [|(k & v) d IHd]; [reflexivity|]. cbn [map fst snd]. rewrite dfind_tree.
      inversion IH as [|? ? Ix Ies]; inversion Hd as [|? ? Hx Hes]; subst. cbn [map flat_map fst snd] in Hc, Ix, Hx.
      destruct (dfind k e) as [w|] eqn:Ew; cbn [option_map]; [|reflexivity].
      rewrite Ix; [|exact Hx| |eapply M'; [left; reflexivity|apply (dfind_in _ _ _ Ew)]].
      * f_equal. apply IHd; auto.
        -- intros c Hi. apply Hc, in_or_app. auto.
        -- intros k' x' k'' y' Hx' Hy'. apply (M' k' x' k'' y'); [right; auto|auto].
      * intros c Hi. apply Hc, in_or_app. auto.
Qed.
(** Comparison never says less with the shortcuts. *)
Lemma aeqb_more (a : aexpr K) : forall b, eeqb (tree a) (tree b) = true -> aeqb a b = true.
Proof.
  induction a as [p c|p x|p o a IHa|p o l r IHl IHr|p es IH|p d IH] using aexpr_ind'; intros b E;
    destruct b as [q c'|q y|q o' s|q o' l' r'|q ys|q e]; try discriminate E; cbn [aeqb tree eeqb] in *.
  - exact E.
  - rewrite E. apply orb_true_r.
  - apply andb_true_iff in E as (E1 & E2). rewrite E1, (IHa _ E2), orb_true_r. reflexivity.
  - apply andb_true_iff in E as (E1 & E2). apply andb_true_iff in E2 as (E2 & E3). rewrite E1, (IHl _ E2), (IHr _ E3), orb_true_r. reflexivity.
  - revert ys E. induction es as [|x es IHes]; intros [|y ys] E; try discriminate E; [reflexivity|]. cbn [map] in E.
    apply andb_true_iff in E as (E1 & E2). inversion IH as [|? ? Ix Ies]; subst. rewrite (Ix _ E1). apply IHes; auto.
  - apply orb_true_iff. right. rewrite !map_length in E. apply andb_true_iff in E as (E1 & E). rewrite E1. cbn [andb]. clear E1.
    induction d as [|(k & v) d IHd]; [reflexivity|]. cbn [map fst snd] in E. rewrite dfind_tree in E.
    inversion IH as [|? ? Ix Ies]; subst. destruct (dfind k e) as [w|]; cbn [option_map] in E; [|discriminate E].
    apply andb_true_iff in E as (E1 & E2). cbn [snd] in Ix. rewrite (Ix _ E1). apply IHd; auto.
Qed.
End Share.
