(** Specification for random numbers with bounds. *)
From Coq Require Import ZArith Reals.
From Flocq Require Import Core.
From Verif Require Import Arf SpecArf.
Open Scope R_scope.

(** GMP's mpz_urandomm: an integer in [0, n). *)
Definition urandomm_ok (urandomm : Z -> Z -> Z) : Prop := forall s n, (0 < n)%Z -> (0 <= urandomm s n < n)%Z.
(** The largest finite double. *)
Definition DBL_MAX : R := IZR (2 ^ 53 - 1) * bpow radix2 971.
(** A finite double whose two neighbours are finite. *)
Definition inner_double (v : R) : Prop := is_double v /\ Rabs v < DBL_MAX.
