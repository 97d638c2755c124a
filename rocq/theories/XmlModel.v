(** Paths of XML nodes: stator/xml.hpp, detail::getPath.

    The rapidxml tree is a tree of named nodes (rapidxml keeps character data as
    child nodes with an empty name); a node is found in it by the list of its
    positions among siblings, from the document (which has no parent) down.
    rapidxml's parent / previous_sibling / next_sibling are modelled through the
    list of sibling names and the position in it. *)
From Coq Require Import String Ascii List Arith Bool Decimal DecimalString.
Import ListNotations.
Open Scope string_scope.

Inductive xtree := XNode (name : string) (children : list xtree).
Definition xname (t : xtree) : string := let 'XNode n _ := t in n.
Definition xchildren (t : xtree) : list xtree := let 'XNode _ c := t in c.

(** previous_sibling(name): the nearest earlier sibling with that name, as a
    position; positions are counted from 0. *)
Fixpoint previous_named (names : list string) (pos : nat) (name : string) : option nat :=
  match pos with
  | O => None
  | S q => if String.eqb (nth q names "") name then Some q else previous_named names q name
  end.
(** next_sibling(name) exists *)
Definition next_named (names : list string) (pos : nat) (name : string) : bool :=
  existsb (String.eqb name) (skipn (S pos) names).
(** while (sibling) { sibling = sibling->previous_sibling(); ++index; } with
    sibling at position [q]: previous_sibling() without a name steps to position
    q-1.  xml.hpp:47 *)
Fixpoint steps_back (q : nat) : nat := match q with O => 1 | S q' => 1 + steps_back q' end.

(** One entry of pathTree for a node that has a parent; [None] is index -1.
    xml.hpp:43-51 *)
Definition level_index (names : list string) (pos : nat) : option nat :=
  let name := nth pos names "" in
  let index := match previous_named names pos name with Some q => steps_back q | None => 0 end in
  if (index =? 0)%nat && negb (next_named names pos name) then None else Some index.

(** os << index *)
Definition show_nat (n : nat) : string := NilEmpty.string_of_uint (Nat.to_uint n).

(** xml.hpp:62-65 *)
Definition segment (name : string) (index : option nat) : string :=
  "/" ++ name ++ match index with Some i => "[" ++ show_nat i ++ "]" | None => "" end.

(** The entries for the node at position [pos] below [t] (with [t] itself having
    a parent or not handled by the caller), outermost first: the loop of
    xml.hpp:40-55 walks up, the output loop 59-66 reverses. *)
Fixpoint below (t : xtree) (pos : list nat) : option (list (string * option nat)) :=
  match pos with
  | [] => Some []
  | p :: rest =>
      match nth_error (xchildren t) p with
      | None => None
      | Some c => option_map (cons (xname c, level_index (map xname (xchildren t)) p)) (below c rest)
      end
  end.
(** getPath of the node of document [t] at position [pos]; the document itself
    has index 0 (line 43). [None]: there is no such node. *)
Definition get_path (t : xtree) (pos : list nat) : option string :=
  option_map (fun l => String.concat "" (map (fun e => segment (fst e) (snd e)) ((xname t, Some 0%nat) :: l))) (below t pos).
