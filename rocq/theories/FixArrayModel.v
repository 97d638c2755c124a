(** Arrays with linear addressing (fixed or growing storage) and row-major arrays with
    fixed storage: stator/symbolic/array.hpp:28-151, 159-256, 257-288, 340-352, 382-476, 555-571 and the
    conversion of an array to an expression, stator/symbolic/runtime.hpp:488-503.

    Simplifications: size_t values are unbounded naturals, except where the code relies
    on wrapping (stated there).  A slot of the storage is [Some v], or [None] when it was
    never given a value: std::array<double, N> is not initialised by the constructors
    (array.hpp:61, 80, 82), reading such a slot is undefined behaviour.  For classes with
    a default constructor the slots start as [Some] of the default; that is the parameter
    [fresh].  After an exception the array keeps whatever was written before the throw,
    so a modifying operation returns the array also when it throws. *)
From Coq Require Import List Arith String Bool.
From Verif Require Import Outcome Num ArrayModel.
Import ListNotations.
Open Scope string_scope.
Open Scope nat_scope.

Inductive attempt (A : Type) := Done (a : A) | Threw (a : A).
Arguments Done {A} a. Arguments Threw {A} a.

(** array.hpp:72-78: the dimension and the storage *)
Record lin (T : Type) := Lin { ldim : nat; lstore : list (option T) }.
Arguments Lin {T}. Arguments ldim {T}. Arguments lstore {T}.

Section Linear.
Context {T : Type}.
Variable fixed : bool.        (* StoreSize is a number; otherwise -1u, a std::vector *)
Variable fresh : option T.    (* slots of a new std::array *)
Variable dflt : T.            (* T(), what std::vector::resize appends *)

(** array.hpp:80 with the storage of 61: [cap] is StoreSize *)
Definition lin_default (cap : nat) : lin T := Lin 0 (if fixed then repeat fresh cap else []).
(** array.hpp:119-132 *)
Definition lin_resize (a : lin T) (d : nat) : attempt (lin T) :=
  if fixed then
    if length (lstore a) <? d then Threw a else Done (Lin d (lstore a))
  else Done (Lin d (vresize (Some dflt) (lstore a) d)).
(** array.hpp:82; when the constructor throws there is no array *)
Definition lin_of_size (cap d : nat) : outcome (lin T) :=
  match lin_resize (lin_default cap) d with Done a => Ret a | Threw _ => Throw end.
(** array.hpp:84-88, growing storage only (std::array has no such constructor) *)
Definition lin_of_list (vals : list T) : lin T := Lin (length vals) (map Some vals).
(** array.hpp:90-94, growing storage only: the storage is replaced after the resize *)
Definition lin_of_size_list (d : nat) (vals : list T) : lin T := Lin d (map Some vals).
(** array.hpp:134-148 *)
Definition lin_push_back (a : lin T) (v : T) : attempt (lin T) :=
  if fixed then
    if length (lstore a) <? ldim a + 1 then Threw a
    else Done (Lin (S (ldim a)) (upd (lstore a) (ldim a) (Some v)))
  else Done (Lin (S (ldim a)) (lstore a ++ [Some v])).
(** array.hpp:98-106, reading and assigning through operator[], without any check *)
Definition slot (l : list (option T)) (i : nat) : outcome T :=
  match nth_error l i with Some (Some v) => Ret v | _ => UB end.
Definition lin_at (a : lin T) (i : nat) : outcome T := slot (lstore a) i.
Definition lin_set (a : lin T) (i : nat) (v : T) : outcome (lin T) :=
  if i <? length (lstore a) then Ret (Lin (ldim a) (upd (lstore a) i (Some v))) else UB.
(** array.hpp:150-151 *)
Definition lin_size (a : lin T) : nat := ldim a.
Definition lin_empty (a : lin T) : bool := ldim a =? 0.

(** array.hpp:108-112 operator==, for two arrays of the same type: the dimensions, then
    the whole storage in order until the first difference (std::vector also compares the
    lengths first) *)
Fixpoint slots_eq (eqb : T -> T -> bool) (l r : list (option T)) : outcome bool :=
  match l, r with
  | [], [] => Ret true
  | Some x :: l', Some y :: r' => if eqb x y then slots_eq eqb l' r' else Ret false
  | _, _ => UB
  end.
Definition lin_eq (eqb : T -> T -> bool) (a b : lin T) : outcome bool :=
  if negb (ldim b =? ldim a) then Ret false
  else if negb (length (lstore b) =? length (lstore a)) then Ret false
  else slots_eq eqb (lstore b) (lstore a).

(** the storage in the order begin() ... end(), array.hpp:114-117, every slot read *)
Fixpoint visit_slots (l : list (option T)) : outcome (list T) :=
  match l with
  | [] => Ret []
  | Some v :: t => do r <- visit_slots t; Ret (v :: r)
  | None :: _ => UB
  end.
Definition lin_visit (a : lin T) : outcome (list T) := visit_slots (lstore a).

(** array.hpp:382-395 repr of an array (plain text).  With size() > 0 and no slot, out is
    "[" and out.size() - 2 wraps, so substr keeps all of it. *)
Definition drop2 (s : string) : string :=
  if String.length s <? 2 then s else substring 0 (String.length s - 2) s.
Definition lin_repr (show : T -> string) (a : lin T) : outcome string :=
  if lin_empty a then Ret ("[" ++ "]")
  else
    do vs <- lin_visit a;
    Ret (drop2 (fold_left (fun out v => out ++ (show v ++ ", ")) vs "[") ++ "]").

(** runtime.hpp:488-503: the conversion to an expression writes size() elements *)
Fixpoint copy_loop (n i : nat) (l : list (option T)) : outcome (list T) :=
  match n with
  | O => Ret []
  | S k => do x <- slot l i; do t <- copy_loop k (S i) l; Ret (x :: t)
  end.
Definition lin_to_expr (a : lin T) : outcome (list T) := copy_loop (ldim a) 0 (lstore a).
End Linear.

(** array.hpp:416-438 elementwiseopLR with linear arrays: the result has the addressing of
    the left operand, [fixed] with the storage size [cap] of its type, or growing.  The
    loop runs over the whole storage of the result. *)
Fixpoint zip_slots {A B C} (f : A -> B -> C) (n i : nat) (l : list (option A)) (r : list (option B)) : outcome (list (option C)) :=
  match n with
  | O => Ret []
  | S k => do x <- slot l i; do y <- slot r i; do t <- zip_slots f k (S i) l r; Ret (Some (f x y) :: t)
  end.
Definition lin_zip {A B C} (fixed : bool) (f : A -> B -> C) (l : lin A) (r : lin B) : outcome (lin C) :=
  if negb (ldim l =? ldim r) then Throw
  else
    let n := if fixed then length (lstore l) else ldim l in
    if fixed && (n <? ldim l) then Throw
    else do s <- zip_slots f n 0 (lstore l) (lstore r); Ret (Lin (ldim l) s).

(** ** Row-major addressing with fixed storage; the dimensions are a vector (D = -1u) or
    of fixed number.  The storage is [store] of ArrayModel with [option]al slots. *)
Section RowMajor.
Context {T : Type}.
(** array.hpp:209-218 resize: the dimensions are assigned before the check *)
Definition rm_resize (a : arr (option T)) (d : list nat) : attempt (arr (option T)) :=
  let b := Arr d (store a) in
  if length (store a) <? store_size b then Threw b else Done b.
(** array.hpp:167-168 *)
Definition rm_default (fresh : option T) (cap : nat) : arr (option T) := Arr [] (repeat fresh cap).
(** array.hpp:235-256 push_back (dimensions in a vector) *)
Definition rm_push_back (a : arr (option T)) (v : T) : attempt (arr (option T)) :=
  let ds := match dims a with [] => [0] | l => l end in
  let b := Arr ds (store a) in
  match ds with
  | [n] => if length (store a) <? n + 1 then Threw b else Done (Arr [S n] (upd (store a) n (Some v)))
  | _ => Threw b
  end.
(** array.hpp:194-201 *)
Definition rm_at (a : arr (option T)) (c : list nat) : outcome T :=
  do i <- coords_to_index a c; slot (store a) i.
Definition rm_set (a : arr (option T)) (c : list nat) (v : T) : outcome (arr (option T)) :=
  do i <- coords_to_index a c;
  if i <? length (store a) then Ret (Arr (dims a) (upd (store a) i (Some v))) else UB.
(** array.hpp:257-288, 340-352 the accessors a[i][j]... when the number D of dimensions is
    known to the compiler: the accessor with [dim] indices still to come stores the next
    one at place D - dim of the coordinates (which start uninitialised, [coords]), the last
    one (275-288) at place D - 1.  Giving another number of indices does not compile. *)
Fixpoint static_chain (D dim : nat) (coords is : list nat) : list nat :=
  match is with
  | [] => coords
  | i :: t => match dim with
              | 1 => upd coords (D - 1) i
              | _ => static_chain D (dim - 1) (upd coords (D - dim) i) t
              end
  end.
Definition rm_chain_read (a : arr (option T)) (garbage is : list nat) : outcome T :=
  rm_at a (static_chain (length garbage) (length garbage) garbage is).
End RowMajor.

(** array.hpp:440-457 elementwiseopL, 459-476 elementwiseopR (an operation with something
    that is not an array, on either side), 396-412 derivative, 555-571 simplify: [f] is
    applied to every element of the storage of the result, which is of the same type *)
Fixpoint map_slots {A C} (f : A -> C) (n i : nat) (l : list (option A)) : outcome (list (option C)) :=
  match n with
  | O => Ret []
  | S k => do x <- slot l i; do t <- map_slots f k (S i) l; Ret (Some (f x) :: t)
  end.
Definition lin_map {A C} (fixed : bool) (f : A -> C) (l : lin A) : outcome (lin C) :=
  let n := if fixed then length (lstore l) else ldim l in
  if fixed && (n <? ldim l) then Throw
  else do s <- map_slots f n 0 (lstore l); Ret (Lin (ldim l) s).
(** the same for row-major arrays with fixed storage, 416-438 and 440-476 *)
Definition rm_zip {A B C} (f : A -> B -> C) (l : arr (option A)) (r : arr (option B)) : outcome (arr (option C)) :=
  if negb (dims_eqb (dims l) (dims r)) then Throw
  else if length (store l) <? store_size l then Throw
  else do s <- zip_slots f (length (store l)) 0 (store l) (store r); Ret (Arr (dims l) s).
Definition rm_map {A C} (f : A -> C) (l : arr (option A)) : outcome (arr (option C)) :=
  if length (store l) <? store_size l then Throw
  else do s <- map_slots f (length (store l)) 0 (store l); Ret (Arr (dims l) s).
(** array.hpp:203-207 operator== and 382-395 repr, row-major arrays with fixed storage of
    the same type *)
Definition rm_eq {T} (eqb : T -> T -> bool) (a b : arr (option T)) : outcome bool :=
  if negb (dims_eqb (dims b) (dims a)) then Ret false
  else slots_eq eqb (store b) (store a).
Definition rm_repr {T} (show : T -> string) (a : arr (option T)) : outcome string :=
  if store_size a =? 0 then Ret ("[" ++ "]")%string
  else
    do vs <- visit_slots (store a);
    Ret (drop2 (fold_left (fun out v => out ++ (show v ++ ", ")) vs "[") ++ "]")%string.
