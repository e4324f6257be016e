(** Specification of conversions to double *)
From Coq Require Import ZArith Bool Reals.
From Flocq Require Import Core.
From Verif Require Import Arf Arb SpecArf SpecLoops Double.
Open Scope R_scope.

(** IEEE-754, round to nearest, ties to even: the rounded value if it is less than 2^1024, otherwise infinity with the
    sign of the number. *)
Definition ieee_nearest (v : R) (d : double) : Prop :=
  match d with
  | DFin a => arf2R a = nearest_double v /\ Rabs (nearest_double v) < bpow radix2 1024
  | DInf negative => bpow radix2 1024 <= Rabs (nearest_double v) /\ (negative = true <-> v < 0)
  end.
(** Halfway between the largest double and the next power of two. *)
Definition overflow_threshold : R := bpow radix2 1024 - bpow radix2 970.
