(** Model of stator/orphan: StackVector, static_list, template_config. *)
From Coq Require Import List Arith ZArith Lia Bool.
From Verif Require Import Num.
Import ListNotations.
Open Scope nat_scope.

(* ------------------------------------------------------------------ *)
(** ** StackVector (stack_vector.hpp:44-145)

    [slots] is the std::array<T,Nmax> base, [sz] the private _size.  Elements are
    copied by assignment; iterators are positions.  Not modelled: operator[] and
    the other members inherited from std::array, ostream output. *)
Record svec (T : Type) := SV { slots : list T; sz : nat }.
Arguments SV {T}. Arguments slots {T}. Arguments sz {T}.

(** what a call shows to its caller *)
Inductive obs (T : Type) :=
| Done                (* void return *)
| Val (x : T)         (* returned value *)
| Exc                 (* stator_throw() *)
| Undef.              (* undefined behaviour *)
Arguments Done {T}. Arguments Val {T}. Arguments Exc {T}. Arguments Undef {T}.

Section sv.
Context {T : Type} (debug : bool).

(** stack_vector.hpp:58 default constructor; [fill] is T() *)
Definition sv_new (nmax : nat) (fill : T) : svec T := SV (repeat fill nmax) 0.

(** stack_vector.hpp:113-120 push_back (the check is in debug builds only);
    writing outside the array is undefined *)
Definition sv_push_back (s : svec T) (x : T) : svec T * obs T :=
  if (debug && Nat.ltb (length (slots s)) (sz s + 1))%bool then (s, Exc)
  else if Nat.ltb (sz s) (length (slots s)) then (SV (upd (slots s) (sz s) x) (S (sz s)), Done)
  else (s, Undef).

(** stack_vector.hpp:122-129 pop_back; --_size of 0 wraps around, so the element
    read is outside the array *)
Definition sv_pop_back (s : svec T) : svec T * obs T :=
  if (debug && Nat.eqb (sz s) 0)%bool then (s, Exc)
  else match sz s with
       | O => (s, Undef)
       | S k => match nth_error (slots s) k with
                | Some x => (SV (slots s) k, Val x)
                | None => (s, Undef)
                end
       end.

(** stack_vector.hpp:106-110 back(); on an empty vector it is the element end()
    points at, i.e. slot 0 *)
Definition sv_back (s : svec T) : svec T * obs T :=
  (s, match nth_error (slots s) (sz s - 1) with Some x => Val x | None => Undef end).

(** stack_vector.hpp:131-135 extend: push_back of every element in order *)
Fixpoint sv_extend_by (s : svec T) (m : list T) : svec T * obs T :=
  match m with
  | [] => (s, Done)
  | a :: t => match sv_push_back s a with
              | (s', Done) => sv_extend_by s' t
              | r => r
              end
  end.

(** stack_vector.hpp:69-81 size, empty and iteration begin()..end() *)
Definition sv_contents (s : svec T) : list T := firstn (sz s) (slots s).
Definition sv_empty (s : svec T) : bool := Nat.eqb (sz s) 0.
(** stack_vector.hpp:83-104 iteration rbegin()..rend(): from end() down to begin() *)
Definition sv_rcontents (s : svec T) : list T := rev (firstn (sz s) (slots s)).

(** stack_vector.hpp:61-68 initializer_list constructor: at most Nmax pushes *)
Fixpoint sv_init_loop (n : nat) (s : svec T) (l : list T) : svec T :=
  match n, l with
  | S k, a :: t => sv_init_loop k (fst (sv_push_back s a)) t
  | _, _ => s
  end.
Definition sv_init (nmax : nat) (fill : T) (l : list T) : svec T := sv_init_loop nmax (sv_new nmax fill) l.

(** stack_vector.hpp:51-55 copy from a StackVector of at most the same capacity;
    [junk] is the (indeterminate) initial content of the base array *)
Definition sv_copy (junk : list T) (v : svec T) : svec T :=
  SV (firstn (sz v) (slots v) ++ skipn (sz v) junk) (sz v).

Inductive svop := Push (x : T) | Pop | Back | Extend (m : list T).
Definition sv_step (s : svec T) (o : svop) : svec T * obs T :=
  match o with
  | Push x => sv_push_back s x
  | Pop => sv_pop_back s
  | Back => sv_back s
  | Extend m => sv_extend_by s m
  end.

(** a history; a thrown exception is caught and the history goes on, undefined
    behaviour ends it *)
Fixpoint sv_run (s : svec T) (os : list svop) : svec T * list (obs T) :=
  match os with
  | [] => (s, [])
  | o :: t => match sv_step s o with
              | (s', Undef) => (s', [Undef])
              | (s', r) => let '(s2, rs) := sv_run s' t in (s2, r :: rs)
              end
  end.
End sv.

(* ------------------------------------------------------------------ *)
(** ** static_list (static_list.hpp).  A type static_list<T, xs...> is the list xs;
    a template that fails a static_assert is [None]. *)
Section sl.
Context {A : Type}.

(** static_list.hpp:37-52, 152-158 make_static_list *)
Fixpoint make_helper (acc l : list A) : list A :=
  match l with [] => acc | h :: t => make_helper (acc ++ [h]) t end.
Definition make_static_list (l : list A) : list A := make_helper [] l.

(** static_list.hpp:54-67 get_static_list_item_helper; [dflt] is the -1 of the
    empty case *)
Fixpoint get_helper (dflt : A) (index listindex : nat) (l : list A) : A :=
  match l with
  | [] => dflt
  | h :: t => if Nat.eqb index listindex then h else get_helper dflt index (S listindex) t
  end.
(** static_list.hpp:160-171 get_static_list_item *)
Definition get_static_list_item (dflt : A) (l : list A) (index : nat) : option A :=
  if Nat.ltb index (length l) then Some (get_helper dflt index 0 l) else None.

(** static_list.hpp:69-86, 173-183 reverse *)
Fixpoint reverse_helper (acc l : list A) : list A :=
  match l with [] => acc | h :: t => reverse_helper (h :: acc) t end.
Definition reverse_static_list (l : list A) : list A := reverse_helper [] l.

(** static_list.hpp:88-109 replace helper; running out of items has no
    specialisation, hence does not compile *)
Fixpoint replace_helper (index listindex : nat) (newl oldl : list A) (v : A) : option (list A) :=
  match oldl with
  | [] => None
  | h :: t => if Nat.eqb index listindex then Some (newl ++ v :: t)
              else replace_helper index (S listindex) (newl ++ [h]) t v
  end.
(** static_list.hpp:185-204 replace_static_list_item *)
Definition replace_static_list_item (l : list A) (index : nat) (v : A) : option (list A) :=
  match l with
  | [] => Some []
  | _ => if Nat.ltb index (length l) then replace_helper index 0 [] l v else None
  end.

(** static_list.hpp:206-246 append, prepend, size, merge *)
Definition append_static_list_item (l : list A) (v : A) : list A := l ++ [v].
Definition prepend_static_list_item (l : list A) (v : A) : list A := v :: l.
Definition static_list_size (l : list A) : nat := length l.
Definition merge_static_lists (l m : list A) : list A := l ++ m.

(** static_list.hpp:111-148 split helper; the specialisation for [false] requires an
    empty second list *)
Fixpoint split_helper (index listindex : nat) (first second l : list A) (split : bool) : option (list A * list A) :=
  match l with
  | [] => Some (first, second)
  | h :: t =>
      if split then split_helper index (S listindex) first (second ++ [h]) t (Nat.leb index (S listindex))
      else match second with
           | [] => split_helper index (S listindex) (first ++ [h]) [] t (Nat.leb index (S listindex))
           | _ => None
           end
  end.
(** static_list.hpp:248-268 split_static_list *)
Definition split_static_list (l : list A) (index : nat) : option (list A * list A) :=
  match l with
  | [] => Some ([], [])
  | _ => split_helper index 0 [] [] l (Nat.eqb index 0)
  end.

(** static_list.hpp:270-309 static_foreach: the sequence of values the functor is
    called with ([n] = End - Index) *)
Fixpoint foreach_helper (dflt : A) (index n : nat) (l : list A) : option (list A) :=
  match n with
  | O => Some []
  | S k => match get_static_list_item dflt l index, foreach_helper dflt (S index) k l with
           | Some x, Some r => Some (x :: r)
           | _, _ => None
           end
  end.
Definition static_foreach (dflt : A) (l : list A) : option (list A) :=
  foreach_helper dflt 0 (static_list_size l) l.
End sl.

(* ------------------------------------------------------------------ *)
(** ** template_config (template_config.hpp:20-133).  A configuration entry is its
    type_id together with its value (a constant, a type or a template: the three
    getters have the same structure). *)
Section tc.
Context {I V : Type} (same : I -> I -> bool).

(** template_config.hpp:39-57 get_value, 60-83 get_type, 85-112 get_template_type *)
Fixpoint config_get (d : I * V) (args : list (I * V)) : V :=
  match args with
  | [] => snd d
  | t2 :: rest => if same (fst d) (fst t2) then snd t2 else config_get d rest
  end.
(** template_config.hpp:114-121 is_present *)
Fixpoint is_present (t : I) (args : list I) : bool :=
  match args with [] => false | t2 :: rest => (same t t2 || is_present t rest)%bool end.
(** template_config.hpp:124-135 tmp_list::contains and is_valid *)
Fixpoint is_valid (valid : list I) (args : list (I * V)) : bool :=
  match args with [] => true | a :: rest => (is_present (fst a) valid && is_valid valid rest)%bool end.
End tc.
