(** Induction principles and unfolding lemmas for expressions and values. *)
From Coq Require Import String.
From Verif Require Import Outcome Num ExprModel ExprSpec.
Open Scope nat_scope.

Section EInd.
Context {K : Type} (P : expr K -> Prop).
Hypothesis Hc : forall c, P (EConst c).
Hypothesis Hv : forall x, P (EVar x).
Hypothesis Hu : forall o a, P a -> P (EUn o a).
Hypothesis Hb : forall o l r, P l -> P r -> P (EBin o l r).
Hypothesis Ha : forall es, Forall P es -> P (EArr es).
Hypothesis Hd : forall d, Forall (fun kv => P (snd kv)) d -> P (EDict d).
Fixpoint expr_ind' (e : expr K) : P e :=
  match e with
  | EConst c => Hc c
  | EVar x => Hv x
  | EUn o a => Hu o a (expr_ind' a)
  | EBin o l r => Hb o l r (expr_ind' l) (expr_ind' r)
  | EArr es => Ha es ((fix go es : Forall P es :=
      match es with [] => Forall_nil _ | x :: t => Forall_cons _ (expr_ind' x) (go t) end) es)
  | EDict d => Hd d ((fix go (d : list (string * expr K)) : Forall (fun kv => P (snd kv)) d :=
      match d with [] => Forall_nil _ | kv :: t =>
        @Forall_cons _ (fun kv => P (snd kv)) kv t
          (match kv as p return P (snd p) with (_, x) => expr_ind' x end) (go t) end) d)
  end.
End EInd.

Section VInd.
Variable P : value -> Prop.
Hypothesis Hn : forall r, P (VN r).
Hypothesis Ha : forall l, Forall P l -> P (VA l).
Hypothesis He : forall a b, P a -> P b -> P (VE a b).
Hypothesis Hd : forall d, Forall (fun kv => P (snd kv)) d -> P (VD d).
Fixpoint value_ind' (v : value) : P v :=
  match v with
  | VN r => Hn r
  | VA l => Ha l ((fix go l : Forall P l :=
      match l with [] => Forall_nil _ | x :: t => Forall_cons _ (value_ind' x) (go t) end) l)
  | VE a b => He a b (value_ind' a) (value_ind' b)
  | VD d => Hd d ((fix go (d : list (string * value)) : Forall (fun kv => P (snd kv)) d :=
      match d with [] => Forall_nil _ | kv :: t =>
        @Forall_cons _ (fun kv => P (snd kv)) kv t
          (match kv as p return P (snd p) with (_, x) => value_ind' x end) (go t) end) d)
  end.
End VInd.

Lemma oseq_ret {A} (l : list (outcome A)) r :
  oseq l = Ret r -> Forall2 (fun o a => o = Ret a) l r.
Proof.
  revert r; induction l as [|x t IH]; simpl; intros r H.
  - injection H as <-; constructor.
  - apply obind_ret in H as (a & Hx & H). apply obind_ret in H as (q & Ht & H).
    injection H as <-. constructor; auto.
Qed.

Lemma oseq_ret_iff {A} (l : list (outcome A)) r :
  oseq l = Ret r <-> Forall2 (fun o a => o = Ret a) l r.
Proof.
  split; [apply oseq_ret|].
  induction 1; simpl; [reflexivity|]. rewrite H, IHForall2; reflexivity.
Qed.

Lemma all_some_iff {A} (l : list (option A)) r :
  all_some l = Some r <-> Forall2 (fun o a => o = Some a) l r.
Proof.
  split.
  - revert r; induction l as [|x t IH]; simpl; intros r H.
    + injection H as <-; constructor.
    + destruct x as [a|]; [|discriminate]. destruct (all_some t) as [q|]; [|discriminate].
      injection H as <-. constructor; auto.
  - induction 1; simpl; [reflexivity|]. rewrite H, IHForall2; reflexivity.
Qed.

Lemma Forall2_map_l {A B C} (f : A -> B) (R : B -> C -> Prop) l r :
  Forall2 R (map f l) r <-> Forall2 (fun a c => R (f a) c) l r.
Proof.
  split.
  - revert r; induction l; simpl; intros r H; inversion H; subst; constructor; auto.
  - induction 1; simpl; constructor; auto.
Qed.

Lemma Forall2_len {A B} (R : A -> B -> Prop) l r : Forall2 R l r -> List.length l = List.length r.
Proof. induction 1; simpl; congruence. Qed.

Section Unfold.
Context {K : Type} `{EN : ENum K}.

(** One unfolding step of [simp]. *)
Definition simp_body (go : expr K -> outcome (option (expr K)))
    (re : list (expr K) -> outcome (list (expr K))) (e : expr K) : outcome (option (expr K)) :=
  match e with
  | EConst _ | EVar _ => Ret None
  | EArr es => do rs <- oseq (map (fun x => or_self x (go x)) es); Ret (Some (EArr rs))
  | EDict d =>
      do rs <- oseq (map (fun kv => match kv with (k, v) =>
                        do v' <- or_self v (go v); Ret (k, v') end) d);
      Ret (Some (EDict rs))
  | EUn o a =>
      do ma <- go a;
      let a' := match ma with Some x => x | None => a end in
      match a' with
      | EConst c => Ret (Some (ueval o c))
      | _ => Ret (match ma with Some x => Some (EUn o x) | None => None end)
      end
  | EBin o l r =>
      do ml <- go l;
      do mr <- go r;
      let l' := match ml with Some x => x | None => l end in
      let r' := match mr with Some x => x | None => r end in
      if is_elem l' (left_zero o) then
        Ret (Some match left_zero o with Some c => EConst c | None => l' end)
      else if is_elem l' (left_identity o) then Ret (Some r')
      else if is_elem r' (right_zero o) then
        Ret (Some match right_zero o with Some c => EConst c | None => r' end)
      else if is_elem r' (right_identity o) then Ret (Some l')
      else
        do ret <-
          match l', r' with
          | EArr xs, EArr ys =>
              match o with
              | BAcc => Throw
              | BPow => UB
              | BEq | BUnits | BUnc => Ret (Some (EBin o l' r'))
              | BAdd | BSub | BMul | BDiv =>
                  if Nat.eqb (List.length xs) (List.length ys) then
                    do rs <- re (zipb o xs ys); Ret (Some (EArr rs))
                  else Throw
              end
          | _, _ => dd_visit o l' r'
          end;
        match ret with
        | Some x => Ret (Some x)
        | None =>
            match ml, mr with
            | None, None => Ret None
            | _, _ => Ret (Some (EBin o l' r'))
            end
        end
  end.

Definition resimp (fuel : nat) (zs : list (expr K)) : outcome (list (expr K)) :=
  match fuel with
  | O => Fuel
  | S m => oseq (map (fun x => or_self x (simp m x)) zs)
  end.

Lemma simp_unfold fuel e : simp fuel e = simp_body (simp fuel) (resimp fuel) e.
Proof.
  destruct fuel as [|m]; destruct e; try reflexivity.
Qed.
End Unfold.
