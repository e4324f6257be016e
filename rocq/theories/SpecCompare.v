(** Specification for Compare.v *)
From Coq Require Import ZArith Bool List.
From Verif Require Import Gen Ring Module Element Loops SpecLoops Balls LoopsCases.

(** With enough rounds there is an answer, and it says whether [P]. *)
Definition answers (f : nat -> option (result bool)) (P : Prop) : Prop := exists b, eventually f (Ok b) /\ (b = true <-> P).

(** With enough rounds and enough steps within each there is an answer, and it says whether [P]. *)
Definition decides (f : nat -> nat -> option bool) (P : Prop) : Prop :=
  exists b iters0 fuel0, (forall iters fuel, (iters0 <= iters)%nat -> (fuel0 <= fuel)%nat -> f iters fuel = Some b) /\ (b = true <-> P).
