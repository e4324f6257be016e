(** Specification for operations that do not return. *)
From Coq Require Import ZArith List.
From Verif Require Import Gen Ring Module Element.

(** However many rounds, there is no result. *)
Definition never {T} (f : nat -> option T) : Prop := forall rounds, f rounds = None.
(** There is a result after some number of rounds. *)
Definition returns {T} (f : nat -> option T) : Prop := exists rounds r, f rounds = Some r.
(** A coefficient is not zero. *)
Definition has_coefficient {A : ring} (x : elem A) : Prop := exists c, In c (coeffs x) /\ c <> czero A.
