(** Vocabulary for the statements about double arithmetic (C67 ...): the real
    number a double stands for, and when two doubles have none between them.
    Nothing here refers to the code's own functions. *)
From Coq Require Import Reals.
From Flocq Require Import Core Binary Bits.
Open Scope R_scope.

(** neither infinite nor NaN *)
Notation fin a := (is_finite 53 1024 a = true).
(** the real value of a finite double *)
Definition dR (a : binary64) : R := B2R 53 1024 a.
(** a finite double between [lo] and [hi] *)
Definition within (lo hi p : binary64) : Prop := fin p /\ dR lo <= dR p <= dR hi.
(** no finite double lies strictly between [u] and [v] *)
Definition adjacent (u v : binary64) : Prop := forall y : binary64, fin y -> ~ (dR u < dR y < dR v).
