(** Outcomes of a C++ call.  A returned value, a thrown exception, undefined
    behaviour and "loop still running when the fuel ran out" are four different
    things; no theorem confuses them. *)
Inductive outcome (A : Type) : Type :=
| Ret (a : A)        (* normal return *)
| Throw              (* a C++ exception leaves the call *)
| UB                 (* undefined behaviour, e.g. out-of-bounds array access *)
| Fuel.              (* model artefact: the loop has not ended within the fuel *)
Arguments Ret {A} a.
Arguments Throw {A}.
Arguments UB {A}.
Arguments Fuel {A}.

Definition obind {A B} (x : outcome A) (k : A -> outcome B) : outcome B :=
  match x with
  | Ret a => k a
  | Throw => Throw
  | UB => UB
  | Fuel => Fuel
  end.

Definition omap {A B} (f : A -> B) (x : outcome A) : outcome B :=
  obind x (fun a => Ret (f a)).

Notation "'do' x <- m ; k" := (obind m (fun x => k))
  (at level 200, x name, m at level 100, k at level 200).

Lemma obind_ret {A B} (x : outcome A) (k : A -> outcome B) b :
  obind x k = Ret b -> exists a, x = Ret a /\ k a = Ret b.
Proof. destruct x; simpl; intros H; try discriminate; eauto. Qed.
