(** Model of stator/exception.hpp, class Exception.

    A std::ostringstream is its buffer and the put position; writing replaces the
    characters from the put position on and appends past the end.  Simplified:
    operator<<(const T&) is given the characters T prints; the buffer never
    becomes bad (no allocation failure). *)
From Coq Require Import Ascii List Arith Bool.
Import ListNotations.

Record ostringstream := mk_oss { oss_buf : list ascii; oss_pos : nat }.

(** os << s: overwrite from the put position *)
Definition oss_write (o : ostringstream) (s : list ascii) : ostringstream :=
  mk_oss (firstn (oss_pos o) (oss_buf o) ++ s ++ skipn (oss_pos o + length s) (oss_buf o))
         (oss_pos o + length s).
(** std::ostringstream(): empty.  std::ostringstream(str): the buffer is [str],
    the put position is its beginning (openmode out without ate). *)
Definition oss_empty : ostringstream := mk_oss [] 0.
Definition oss_of_str (s : list ascii) : ostringstream := mk_oss s 0.
(** os.str() *)
Definition oss_str (o : ostringstream) : list ascii := oss_buf o.

(** A const char* made by c_str() is read up to the first NUL. *)
Fixpoint c_string (s : list ascii) : list ascii :=
  match s with
  | [] => []
  | c :: r => if Ascii.eqb c zero then [] else c :: c_string r
  end.

(** class Exception: the member message_ (messageStr_ is only a copy made by
    what()).  exception.hpp:66-118 *)
Definition exn := ostringstream.

(** The constructor: message_ << "Exception thrown in [" << funcname << "] (" <<
    file << ":" << line << ")" << std::endl.  [pre], [mid], [sep], [post] are
    these fixed texts.  exception.hpp:74-79 *)
Definition exn_new (pre funcname mid file sep line post : list ascii) : exn :=
  oss_write (oss_write (oss_write (oss_write (oss_write (oss_write (oss_write oss_empty
    pre) funcname) mid) file) sep) line) post.
(** Copy constructor: message_(e.message_.str()).  exception.hpp:86 *)
Definition exn_copy (e : exn) : exn := oss_of_str (oss_str e).
(** operator<<.  exception.hpp:93-97 *)
Definition exn_add (e : exn) (m : list ascii) : exn := oss_write e m.
(** what().  exception.hpp:108-111 *)
Definition exn_what (e : exn) : list ascii := c_string (oss_str e).

(** stator_throw() << m1 << m2 ... : operator<< returns an lvalue, so the thrown
    object is a copy (exception.hpp:27, 93). *)
Definition exn_thrown (e0 : exn) (ms : list (list ascii)) : exn :=
  exn_copy (fold_left exn_add ms e0).
