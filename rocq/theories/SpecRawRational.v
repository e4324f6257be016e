(** Specification for RawRational.v. *)
From Coq Require Import ZArith List Reals String.
From Verif Require Import RawRational.
Open Scope Z_scope.

(** The number a fraction denotes. *)
Definition fraction_value (q : fraction) : R := (IZR (fst q) / IZR (snd q))%R.
(** In lowest terms, with a positive denominator. *)
Definition lowest_terms (q : fraction) : Prop := 0 < snd q /\ Z.gcd (fst q) (snd q) = 1.

(** The processes that have only created canonical rational numbers, and loaded text of such. *)
Inductive canonical_history : process -> Prop :=
| start_process : canonical_history new_process
| create_number s q s' i : canonical_history s -> lowest_terms q -> rational s q = Returns s' i -> canonical_history s'
| load_number s text q s' i : canonical_history s -> Text.load_mpq text = Some q -> lowest_terms q -> load_rational s text = Returns s' i -> canonical_history s'.
(** The number of an object. *)
Definition number_value (s : process) (i : nat) (v : R) : Prop := exists q, number (numbers s) i = Some q /\ fraction_value q = v.
