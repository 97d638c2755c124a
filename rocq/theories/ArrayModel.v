(** Model of stator/symbolic/array.hpp with dynamic (std::vector) storage and
    dimensions, the defaults of sym::Array, and of the linear addressing used by
    ArrayRT.  Simplification: size_t products are unbounded naturals. *)
From Coq Require Import List Arith Lia Bool.
From Verif Require Import Outcome Num.
Import ListNotations.
Open Scope nat_scope.

Record arr (T : Type) := Arr { dims : list nat; store : list T }.
Arguments Arr {T}. Arguments dims {T}. Arguments store {T}.

Section arr.
Context {T : Type} (dflt : T).     (* T(): value of newly created elements *)

(** reading element [i] of a std::vector without a check *)
Definition vread {A} (l : list A) (i : nat) : outcome A :=
  match nth_error l i with Some x => Ret x | None => UB end.

(** array.hpp:183-192 coords_to_index *)
Fixpoint index_loop (address : nat) (ds d : list nat) : outcome nat :=
  match ds with
  | [] => Ret address
  | n :: ds' => match d with
                | [] => UB
                | c :: d' => index_loop (address * n + c) ds' d'
                end
  end.
Definition coords_to_index (a : arr T) (d : list nat) : outcome nat := index_loop 0 (dims a) d.

(** array.hpp:227-233 store_size: rank 0 has no element *)
Definition store_size (a : arr T) : nat :=
  fold_left (fun s n => s * n) (dims a) (if Nat.ltb 0 (length (dims a)) then 1 else 0).
(** array.hpp:220-225 size, empty *)
Definition arr_size (a : arr T) : nat := store_size a.
Definition arr_empty (a : arr T) : bool := Nat.eqb (store_size a) 0.

(** std::vector::resize *)
Definition vresize (l : list T) (n : nat) : list T := firstn n l ++ repeat dflt (n - length l).

(** array.hpp:167 default constructor, 209-218 resize, 168 constructor from
    dimensions, 170-174 constructor from dimensions and values (which replaces the
    store by the values, whatever their number) *)
Definition arr_default : arr T := Arr [] [].
Definition arr_resize (a : arr T) (d : list nat) : arr T :=
  Arr d (vresize (store a) (store_size (Arr d (store a)))).
Definition arr_of_dims (d : list nat) : arr T := arr_resize arr_default d.
Definition arr_of_values (d : list nat) (vals : list T) : arr T := Arr d vals.

(** array.hpp:194-201 operator[](Coords) and assignment through it *)
Definition arr_at (a : arr T) (d : list nat) : outcome T :=
  do i <- coords_to_index a d; vread (store a) i.
Definition arr_set (a : arr T) (d : list nat) (v : T) : outcome (arr T) :=
  do i <- coords_to_index a d;
  if Nat.ltb i (length (store a)) then Ret (Arr (dims a) (upd (store a) i v)) else UB.

(** array.hpp:235-256 push_back *)
Definition arr_push_back (a : arr T) (v : T) : outcome (arr T) :=
  let ds := match dims a with [] => [0] | l => l end in
  match ds with
  | [n] => Ret (Arr [S n] (store a ++ [v]))
  | _ => Throw
  end.

(** array.hpp:290-353 the chained accessor a[i][j]...: [coords] starts as zeros of
    length rank, [idx] counts the indices given so far.  The read is the
    conversion operator. *)
Fixpoint chain (rank : nat) (coords : list nat) (idx : nat) (is : list nat) : outcome (list nat * nat) :=
  match is with
  | [] => Ret (coords, idx)
  | v :: t => if Nat.eqb idx rank then Throw else chain rank (upd coords idx v) (S idx) t
  end.
Definition arr_chain_read (a : arr T) (is : list nat) : outcome T :=
  do r <- chain (length (dims a)) (repeat 0 (length (dims a))) 0 is;
  let '(coords, idx) := r in
  if Nat.eqb idx (length (dims a)) then arr_at a coords else Throw.
Definition arr_chain_write (a : arr T) (is : list nat) (v : T) : outcome (arr T) :=
  do r <- chain (length (dims a)) (repeat 0 (length (dims a))) 0 is;
  let '(coords, idx) := r in
  if Nat.eqb idx (length (dims a)) then arr_set a coords v else Throw.
End arr.

(** the loops  while (outp != out.end()) { *outp = f( *lp, *rp); ... }  writing [n]
    elements *)
Fixpoint zip_loop {A B C} (f : A -> B -> C) (n i : nat) (l : list A) (r : list B) : outcome (list C) :=
  match n with
  | O => Ret []
  | S k => do x <- vread l i; do y <- vread r i; do t <- zip_loop f k (S i) l r; Ret (f x y :: t)
  end.
Fixpoint map_loop {A C} (f : A -> C) (n i : nat) (l : list A) : outcome (list C) :=
  match n with
  | O => Ret []
  | S k => do x <- vread l i; do t <- map_loop f k (S i) l; Ret (f x :: t)
  end.

Definition dims_eqb (a b : list nat) : bool := if list_eq_dec Nat.eq_dec a b then true else false.

(** array.hpp:416-438 elementwiseopLR *)
Definition elementwiseLR {A B C} (f : A -> B -> C) (l : arr A) (r : arr B) : outcome (arr C) :=
  if dims_eqb (dims l) (dims r) then
    do s <- zip_loop f (store_size l) 0 (store l) (store r); Ret (Arr (dims l) s)
  else Throw.
(** array.hpp:440-457 elementwiseopL, 459-476 elementwiseopR, and with [f] =
    simplify / derivative also 396-412 and 555-571 *)
Definition elementwiseL {A B C} (f : A -> B -> C) (l : arr A) (r : B) : outcome (arr C) :=
  do s <- map_loop (fun x => f x r) (store_size l) 0 (store l); Ret (Arr (dims l) s).
Definition elementwiseR {A B C} (f : A -> B -> C) (l : A) (r : arr B) : outcome (arr C) :=
  do s <- map_loop (fun y => f l y) (store_size r) 0 (store r); Ret (Arr (dims r) s).
