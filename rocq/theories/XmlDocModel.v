(** Model of stator/xml.hpp: Document, Node, Attribute.

    rapidxml (not part of the repository) is modelled through its documented
    behaviour: a node has a name, a value (pointer and size), attributes in
    order, a parent and children in order; first_node / next_sibling /
    previous_sibling / first_attribute with a name search in document order;
    append_node / append_attribute add at the end; allocate_string copies up to
    the first NUL.  Nodes are numbered by creation; the document is node 0.
    A null pointer is [None]; following one is UB. *)
From Coq Require Import Ascii List Arith Bool.
From Verif Require Import Outcome ExceptionModel.
Import ListNotations.

Definition text := list ascii.
Definition text_eqb (a b : text) : bool := if list_eq_dec ascii_dec a b then true else false.

(** value() / value_size(): the bytes from the pointer up to the first NUL, and
    the size.  For strings made with allocate_string the size is their length;
    with parse_non_destructive the pointer points into the document, whose text
    goes on after the value. *)
Record xval := mk_val { v_mem : text; v_size : nat }.
Definition val_text (v : xval) : text := firstn (v_size v) (v_mem v).
(** allocate_string(s.c_str()) used as a value: measured with strlen *)
Definition val_alloc (s : text) : xval := mk_val (c_string s) (length (c_string s)).

Record xnode := mk_node {
  x_name : text; x_value : xval; x_attrs : list (text * xval);
  x_parent : option nat; x_kids : list nat }.
Definition doc := list xnode.

(** Node(rapidxml node pointer, parent pointer).  xml.hpp:285, 350-351 *)
Record handle := mk_h { h_node : option nat; h_parent : option nat }.
(** Attribute(pointer, parent): the attribute is given by its value.  xml.hpp:137-141 *)
Record attr := mk_attr { a_ptr : option (text * xval); a_parent : nat }.

Definition set_nth {A} (l : list A) (i : nat) (a : A) : list A := firstn i l ++ a :: skipn (S i) l.
(** rewriting one node *)
Definition upd (d : doc) (i : nat) (f : xnode -> xnode) : doc :=
  match nth_error d i with Some n => set_nth d i (f n) | None => d end.

Definition name_of (d : doc) (i : nat) : option text := option_map x_name (nth_error d i).
Definition named (d : doc) (name : text) (i : nat) : bool :=
  match name_of d i with Some n => text_eqb n name | None => false end.

(** rapidxml first_node(name) / first_node() *)
Definition first_node (d : doc) (i : nat) (name : text) : option nat :=
  match nth_error d i with Some n => find (named d name) (x_kids n) | None => None end.
Definition first_any (d : doc) (i : nat) : option nat :=
  match nth_error d i with Some n => hd_error (x_kids n) | None => None end.
(** the siblings after / before node [i] in the list of children, nearest first *)
Fixpoint after (i : nat) (l : list nat) : list nat :=
  match l with [] => [] | k :: r => if k =? i then r else after i r end.
Definition siblings (d : doc) (i : nat) : list nat :=
  match nth_error d i with
  | Some n => match x_parent n with
              | Some p => match nth_error d p with Some m => x_kids m | None => [] end
              | None => [] end
  | None => [] end.
(** rapidxml next_sibling(name) / previous_sibling(name); asserted to have a parent *)
Definition next_sibling (d : doc) (i : nat) (name : text) : option nat :=
  find (named d name) (after i (siblings d i)).
Definition previous_sibling (d : doc) (i : nat) (name : text) : option nat :=
  find (named d name) (after i (rev (siblings d i))).
Definition first_attribute (l : list (text * xval)) (name : text) : option (text * xval) :=
  find (fun a => text_eqb (fst a) name) l.

(** valid().  xml.hpp:239 *)
Definition valid (h : handle) : bool := match h_node h with Some _ => true | None => false end.
Definition parent_of (d : doc) (i : nat) : option nat :=
  match nth_error d i with Some n => x_parent n | None => None end.

(** findNode: throws only on an invalid node.  xml.hpp:187-193 *)
Definition find_node (d : doc) (h : handle) (name : text) : outcome handle :=
  match h_node h with
  | None => Throw
  | Some i => Ret (mk_h (first_node d i (c_string name)) (Some i))
  end.
(** getNode(const char* ): findNode, and throws when there is no such child.
    xml.hpp:172-180 *)
Definition get_node (d : doc) (h : handle) (name : text) : outcome handle :=
  do c <- find_node d h name;
  if valid c then Ret c else Throw.
(** getNode<std::string>: the specialisation does not test the child.
    xml.hpp:363-370 *)
Definition get_node_string (d : doc) (h : handle) (name : text) : outcome handle := find_node d h name.
(** firstNode.  xml.hpp:195-201 *)
Definition get_first (d : doc) (h : handle) : outcome handle :=
  match h_node h with None => Throw | Some i => Ret (mk_h (first_any d i) (Some i)) end.
(** hasNode, hasAttribute.  xml.hpp:207-226, 470-472 *)
Definition has_node (d : doc) (h : handle) (name : text) : outcome bool :=
  match h_node h with
  | None => Throw
  | Some i => Ret (match first_node d i (c_string name) with Some _ => true | None => false end)
  end.
Definition attrs_of (d : doc) (i : nat) : list (text * xval) :=
  match nth_error d i with Some n => x_attrs n | None => [] end.
Definition has_attribute (d : doc) (h : handle) (name : text) : outcome bool :=
  match h_node h with
  | None => Throw
  | Some i => Ret (match first_attribute (attrs_of d i) (c_string name) with Some _ => true | None => false end)
  end.
(** getAttribute<std::string>.  xml.hpp:354-361 *)
Definition get_attribute_string (d : doc) (h : handle) (name : text) : outcome attr :=
  match h_node h with
  | None => Throw
  | Some i => Ret (mk_attr (first_attribute (attrs_of d i) (c_string name)) i)
  end.
(** getAttribute(const char* ).  xml.hpp:153-166 *)
Definition get_attribute (d : doc) (h : handle) (name : text) : outcome attr :=
  do a <- get_attribute_string d h name;
  match a_ptr a with Some _ => Ret a | None => Throw end.
(** Attribute::getValue.  xml.hpp:88-94 *)
Definition attr_value (a : attr) : outcome text :=
  match a_ptr a with Some (_, v) => Ret (val_text v) | None => Throw end.
(** Attribute::match over a std::map given by its entries in key order.
    xml.hpp:119-126 *)
Fixpoint match_loop {T} (s : text) (vals : list (text * T)) : outcome T :=
  match vals with
  | [] => Throw
  | (k, v) :: r => if text_eqb s k then Ret v else match_loop s r
  end.
Definition attr_match {T} (a : attr) (vals : list (text * T)) : outcome T :=
  do s <- attr_value a; match_loop s vals.

(** Node::getValue.  xml.hpp:229-236 *)
Definition get_value (d : doc) (h : handle) : outcome text :=
  match h_node h with
  | None => Throw
  | Some i => match nth_error d i with Some n => Ret (val_text (x_value n)) | None => UB end
  end.
(** getName: no test.  xml.hpp:299 *)
Definition get_name (d : doc) (h : handle) : outcome text :=
  match h_node h with
  | None => UB
  | Some i => match nth_error d i with Some n => Ret (x_name n) | None => UB end
  end.
(** operator++ and operator--: the next / previous node of the same name; the
    remembered parent stays.  A node without parent (the document) trips
    rapidxml's assertion.  xml.hpp:244-250, 267-273 *)
Definition step (sib : doc -> nat -> text -> option nat) (d : doc) (h : handle) : outcome handle :=
  match h_node h with
  | None => Throw
  | Some i =>
      match nth_error d i with
      | None => UB
      | Some n => match x_parent n with
                  | None => UB
                  | Some _ => Ret (mk_h (sib d i (x_name n)) (h_parent h))
                  end
      end
  end.
Definition incr := step next_sibling.
Definition decr := step previous_sibling.
(** getParent.  xml.hpp:276-282 *)
Definition get_parent (d : doc) (h : handle) : outcome handle :=
  match h_parent h with
  | None => Throw
  | Some p => Ret (mk_h (Some p) (parent_of d p))
  end.

(** append_node of a fresh element below node [i].  xml.hpp:301-306, 414-419 *)
Definition append_node (d : doc) (i : nat) (name : text) : doc * handle :=
  let k := length d in
  (upd d i (fun n => mk_node (x_name n) (x_value n) (x_attrs n) (x_parent n) (x_kids n ++ [k]))
     ++ [mk_node (c_string name) (mk_val [] 0) [] (Some i) []],
   mk_h (Some k) (Some i)).
(** Node::add_node dereferences the node without a test.  xml.hpp:301-306 *)
Definition add_node (d : doc) (h : handle) (name : text) : outcome (doc * handle) :=
  match h_node h with None => UB | Some i => Ret (append_node d i name) end.
(** Document::add_node.  xml.hpp:414-419 *)
Definition doc_add_node (d : doc) (name : text) : doc * handle := append_node d 0 name.
(** Document::getNode.  xml.hpp:406-412 *)
Definition doc_get_node (d : doc) (name : text) : outcome handle :=
  match first_node d 0 (c_string name) with
  | Some k => Ret (mk_h (Some k) (Some 0))
  | None => Throw
  end.
(** add_attribute(name, value).  xml.hpp:308-314 *)
Definition add_attribute (d : doc) (h : handle) (name value : text) : outcome doc :=
  match h_node h with
  | None => UB
  | Some i => Ret (upd d i (fun n => mk_node (x_name n) (x_value n)
                     (x_attrs n ++ [(c_string name, val_alloc value)]) (x_parent n) (x_kids n)))
  end.
(** add_attribute(name, val, vals): the key of the first entry holding [val].
    xml.hpp:316-322 *)
Fixpoint key_of {T} (eqb : T -> T -> bool) (val : T) (vals : list (text * T)) : outcome text :=
  match vals with
  | [] => Throw
  | (k, v) :: r => if eqb val v then Ret k else key_of eqb val r
  end.
Definition add_attribute_enum {T} (eqb : T -> T -> bool) (d : doc) (h : handle) (name : text) (val : T) (vals : list (text * T)) : outcome doc :=
  do k <- key_of eqb val vals; add_attribute d h name k.
(** operator=.  xml.hpp:329-333 *)
Definition set_value (d : doc) (h : handle) (value : text) : outcome doc :=
  match h_node h with
  | None => UB
  | Some i => Ret (upd d i (fun n => mk_node (x_name n) (val_alloc value) (x_attrs n) (x_parent n) (x_kids n)))
  end.
(** operator+=: the old value is read as a C string.  xml.hpp:335-343 *)
Definition add_value (d : doc) (h : handle) (value : text) : outcome doc :=
  match h_node h with
  | None => UB
  | Some i =>
      match nth_error d i with
      | None => UB
      | Some n => if v_size (x_value n) =? 0 then set_value d h value
                  else set_value d h (c_string (v_mem (x_value n)) ++ value)
      end
  end.
(** Document().  xml.hpp:387 *)
Definition doc_new : doc := [mk_node [] (mk_val [] 0) [] None []].

(** The usual loop: for (Node n = h.findNode(name); n.valid(); ++n) visit(n). *)
Fixpoint walk (fuel : nat) (d : doc) (h : handle) : outcome (list nat) :=
  match fuel with
  | O => Fuel
  | S f => match h_node h with
           | None => Ret []
           | Some i => do h' <- incr d h; do r <- walk f d h'; Ret (i :: r)
           end
  end.
Definition walk_named (fuel : nat) (d : doc) (h : handle) (name : text) : outcome (list nat) :=
  do c <- find_node d h name; walk fuel d c.

(** Document::parseData, the error report.  [data] is the document, [loc] the
    offset of the error (at most its size); reading data[size] gives NUL.
    xml.hpp:434-463 *)
Definition at_ (data : text) (i : nat) : ascii := nth i data zero.
Definition newline : ascii := "010"%char.
(** for (ptr = data; ptr < loc; ++ptr) if ( *ptr == '\n') ++line_num;   439-442 *)
Fixpoint count_lines (data : text) (ptr n line : nat) : nat :=
  match n with
  | O => line
  | S m => count_lines data (S ptr) m (if Ascii.eqb (at_ data ptr) newline then S line else line)
  end.
(** while (( *start != '\n') && (start != data)) --start;   445-447 *)
Fixpoint back (data : text) (start : nat) : nat :=
  match start with
  | O => O
  | S q => if Ascii.eqb (at_ data (S q)) newline then S q else back data q
  end.
(** while (( *end != '\n') && (end != data + size)) ++end;   452-454; [n] bounds the steps *)
Fixpoint forth (data : text) (e n : nat) : nat :=
  match n with
  | O => e
  | S m => if Ascii.eqb (at_ data e) newline then e else if e =? length data then e else forth data (S e) m
  end.
Record report := mk_report { r_line : nat; r_char : nat; r_before : text; r_after : text; r_caret : nat }.
Definition slice (data : text) (a b : nat) : text := firstn (b - a) (skipn a data).
(** std::string(first, last) with first > last is undefined; it happens when the
    error is at a newline, for the line start is then one past the error (446-450,
    457-461). *)
Definition parse_error (data : text) (loc : nat) : outcome report :=
  let line := count_lines data 0 loc 1 in
  let s0 := back data loc in
  let start := if s0 =? 0 then s0 else S s0 in
  let stop := forth data loc (S (length data)) in
  if loc <? start then UB
  else
    let startsize := Nat.min (loc - start) 40 in
    Ret (mk_report line (loc - start) (slice data (loc - startsize) loc)
           (slice data loc (loc + Nat.min (stop - loc) 40)) startsize).
