(** Specification of a bounded sequence (C24), independent of the array layout. *)
From Coq Require Import List.
From Verif Require Import OrphanModel.
Import ListNotations.

Section spec.
Context {T : Type} (cap : nat).

(** a list that holds at most [cap] elements; a call that does not fit raises *)
Definition spec_step (l : list T) (o : svop (T := T)) : list T * obs T :=
  match o with
  | Push x => if Nat.ltb (length l) cap then (l ++ [x], Done) else (l, Exc)
  | Pop => match rev l with [] => (l, Exc) | x :: r => (rev r, Val x) end
  | Back => match rev l with [] => (l, Exc) | x :: _ => (l, Val x) end
  | Extend m => if Nat.leb (length l + length m) cap then (l ++ m, Done)
                else (l ++ firstn (cap - length l) m, Exc)
  end.
Fixpoint spec_run (l : list T) (os : list svop) : list T * list (obs T) :=
  match os with
  | [] => (l, [])
  | o :: t => let '(l', r) := spec_step l o in let '(l2, rs) := spec_run l' t in (l2, r :: rs)
  end.
End spec.
