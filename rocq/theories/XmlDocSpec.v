(** Specification side of C58-C60, independent of how xml.hpp searches. *)
From Coq Require Import Ascii List Arith Bool.
From Verif Require Import Outcome ExceptionModel XmlDocModel.
Import ListNotations.

(** A document as rapidxml keeps it: every child knows its parent and every
    node appears once among its parent's children; the document (node 0) has no
    parent. *)
Record wf (d : doc) : Prop := {
  wf_root : exists n, nth_error d 0 = Some n /\ x_parent n = None;
  wf_kids : forall i n k, nth_error d i = Some n -> In k (x_kids n) ->
              exists m, nth_error d k = Some m /\ x_parent m = Some i;
  wf_parent : forall k m i, nth_error d k = Some m -> x_parent m = Some i ->
              exists n, nth_error d i = Some n /\ In k (x_kids n);
  wf_once : forall i n, nth_error d i = Some n -> NoDup (x_kids n);
  wf_only : forall i n, nth_error d i = Some n -> x_parent n = None -> i = 0;
  wf_down : forall i n k, nth_error d i = Some n -> In k (x_kids n) -> i < k }.
(** A handle the program holds points to a node of the document and remembers
    that node's parent; an invalid one still remembers where it was searched. *)
Definition hok (d : doc) (h : handle) : Prop :=
  match h_node h with
  | Some i => exists n, nth_error d i = Some n /\ h_parent h = x_parent n
  | None => exists p n, h_parent h = Some p /\ nth_error d p = Some n
  end.

(** Every history of calls: [history d0 d hs] says that a program that starts
    with the document [d0] (empty or parsed) can have the document [d] and hold
    the handles [hs]. *)
Inductive history (d0 : doc) : doc -> list handle -> Prop :=
| hi_start : history d0 d0 []
| hi_doc_add : forall d hs name d' h, history d0 d hs -> doc_add_node d name = (d', h) -> history d0 d' (h :: hs)
| hi_doc_get : forall d hs name h, history d0 d hs -> doc_get_node d name = Ret h -> history d0 d (h :: hs)
| hi_add : forall d hs h name d' h', history d0 d hs -> In h hs -> add_node d h name = Ret (d', h') -> history d0 d' (h' :: hs)
| hi_attr : forall d hs h name v d', history d0 d hs -> In h hs -> add_attribute d h name v = Ret d' -> history d0 d' hs
| hi_set : forall d hs h v d', history d0 d hs -> In h hs -> set_value d h v = Ret d' -> history d0 d' hs
| hi_app : forall d hs h v d', history d0 d hs -> In h hs -> add_value d h v = Ret d' -> history d0 d' hs
| hi_find : forall d hs h name h', history d0 d hs -> In h hs -> find_node d h name = Ret h' -> history d0 d (h' :: hs)
| hi_get : forall d hs h name h', history d0 d hs -> In h hs -> get_node d h name = Ret h' -> history d0 d (h' :: hs)
| hi_first : forall d hs h h', history d0 d hs -> In h hs -> get_first d h = Ret h' -> history d0 d (h' :: hs)
| hi_incr : forall d hs h h', history d0 d hs -> In h hs -> incr d h = Ret h' -> history d0 d (h' :: hs)
| hi_decr : forall d hs h h', history d0 d hs -> In h hs -> decr d h = Ret h' -> history d0 d (h' :: hs)
| hi_parent : forall d hs h h', history d0 d hs -> In h hs -> get_parent d h = Ret h' -> history d0 d (h' :: hs).

(** Children of a node in document order, and those of one name. *)
Definition kids_of (d : doc) (i : nat) : list nat := match nth_error d i with Some n => x_kids n | None => [] end.
Definition kids_named (d : doc) (i : nat) (name : text) : list nat :=
  filter (fun k => match nth_error d k with Some m => text_eqb (x_name m) name | None => false end) (kids_of d i).

(** Lines of a text: [line_start data loc s] says that the line of position
    [loc] begins at [s]; [line_end] that it ends (before its newline) at [e]. *)
Definition is_newline (data : text) (i : nat) : Prop := nth_error data i = Some "010"%char.
Definition line_start (data : text) (loc s : nat) : Prop :=
  s <= loc /\ (s = 0 \/ is_newline data (s - 1)) /\ forall i, s <= i < loc -> ~ is_newline data i.
Definition line_end (data : text) (loc e : nat) : Prop :=
  loc <= e <= length data /\ (e = length data \/ is_newline data e) /\ forall i, loc <= i < e -> ~ is_newline data i.
Definition newlines_before (data : text) (loc : nat) : nat :=
  length (filter (fun c => Ascii.eqb c "010"%char) (firstn loc data)).
