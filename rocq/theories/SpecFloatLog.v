(** Specification of the logarithm of the C library and of the number of bits. *)
From Coq Require Import ZArith Reals.
From Flocq Require Import Core.
Open Scope R_scope.

(** The logarithm is right up to 2^-46 (that is two units in the last place for results between 32 and 64) ... *)
Definition close_log2 (clog2 : R -> R) : Prop := forall x, 1 <= x <= 2 ^ 53 -> Rabs (clog2 x - ln x / ln 2) <= / 2 ^ 46.
(** ... and exact where it is an integer. *)
Definition exact_log2 (clog2 : R -> R) : Prop := forall k : nat, (k <= 53)%nat -> clog2 (2 ^ k) = INR k.
(** [b] is the number of binary digits needed to count up to [n]: the least b with n <= 2^b. *)
Definition is_log2_up (n b : Z) : Prop := (0 <= b /\ n <= 2 ^ b /\ forall c, 0 <= c -> n <= 2 ^ c -> b <= c)%Z.
