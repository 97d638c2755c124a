(** Model of stator/string.hpp.  A std::string is the list of its characters; the
    character type is any type with a decidable equality. *)
From Coq Require Import List Arith Lia Bool.
From Verif Require Import Outcome.
Import ListNotations.
Open Scope nat_scope.

Section str.
Context {A : Type} (eqb : A -> A -> bool).

Fixpoint memb (x : A) (l : list A) : bool := match l with [] => false | y :: t => (eqb x y || memb x t)%bool end.

(** std::string::find_first_not_of / find_last_not_of; [None] is npos *)
Fixpoint find_first_not_of (s ws : list A) : option nat :=
  match s with
  | [] => None
  | c :: t => if memb c ws then option_map S (find_first_not_of t ws) else Some 0
  end.
Fixpoint find_last_not_of (s ws : list A) : option nat :=
  match s with
  | [] => None
  | c :: t => match find_last_not_of t ws with
              | Some i => Some (S i)
              | None => if memb c ws then None else Some 0
              end
  end.
(** std::string::substr(pos, n) for pos <= size *)
Definition substr (s : list A) (pos n : nat) : list A := firstn n (skipn pos s).

(** string.hpp:37-46 strip.  The second npos cannot occur; size_t npos - strBegin + 1
    would keep the whole rest of the string. *)
Definition strip (s ws : list A) : list A :=
  match find_first_not_of s ws with
  | None => []
  | Some b => match find_last_not_of s ws with
              | Some e => substr s b (e - b + 1)
              | None => skipn b s
              end
  end.

(** std::string::find(pat, pos) *)
Fixpoint starts_with (pat s : list A) : bool :=
  match pat, s with
  | [], _ => true
  | p :: pt, c :: st => (eqb p c && starts_with pt st)%bool
  | _ :: _, [] => false
  end.
Fixpoint find (s pat : list A) : option nat :=
  if starts_with pat s then Some 0
  else match s with [] => None | _ :: t => option_map S (find t pat) end.
Definition find_from (s pat : list A) (pos : nat) : option nat :=
  if Nat.leb pos (length s) then option_map (fun i => pos + i) (find (skipn pos s) pat) else None.
(** std::string::replace(pos, n, to) *)
Definition replace_at (s : list A) (pos n : nat) (to : list A) : list A := firstn pos s ++ to ++ skipn (pos + n) s.

(** string.hpp:70-92 search_replace: the while loop *)
Fixpoint sr_loop (fuel : nat) (s from to : list A) (loc count : nat) : outcome (list A * nat) :=
  match fuel with
  | O => Fuel
  | S fu =>
      match find_from s from loc with
      | None => Ret (s, count)
      | Some p =>
          let s' := replace_at s p (length from) to in
          let loc' := p + length to in
          if Nat.leb (length s') loc' then Ret (s', S count)
          else sr_loop fu s' from to loc' (S count)
      end
  end.
Definition search_replace (fuel : nat) (s from to : list A) : outcome (list A * nat) :=
  match s with [] => Ret ([], 0) | _ => sr_loop fuel s from to 0 0 end.
End str.
