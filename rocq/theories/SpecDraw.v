(** Specification of the random digits that real numbers draw.  Only the data types of the model are used here (and [arf_bits], the
    number of bits of an Arf's mantissa). *)
From Coq Require Import ZArith QArith List Reals.
From Flocq Require Import Core.
From Verif Require Import Arf Arb SpecArf Real SpecReal.
Import ListNotations.

(** The stream of digits starts with exactly [z] zeros. *)
Definition leading_zeros (s : nat -> bool) (z : nat) : Prop := s z = true /\ forall i, (i < z)%nat -> s i = false.
Definition seed_of (a : atom) : Z := match a with ARandom s => s | AConstr _ _ s => s end.
(** The number of digits that are known without drawing any: those of the initial part of a constrained number. *)
Definition known_digits (a : atom) : Z := match a with ARandom _ => 0 | AConstr initial _ _ => arf_bits initial end.
(** [n] digits are drawn for [prec + 1] significant digits of a random number: the leading zeros and the digits that are not known yet. *)
Definition draws (rng : Z -> nat -> bool) (a : atom) (prec : Z) (n : nat) : Prop :=
  if (prec + 1 <=? known_digits a)%Z then n = 0%nat
  else exists z, leading_zeros (rng (seed_of a)) z /\ n = (z + Z.to_nat (prec + 1 - known_digits a))%nat.
(** The random numbers in a real number, and the precision to which they are needed: products need some guard digits. *)
Definition atoms (x : rnum) : list atom := match x with RRat _ => [] | RAtom a => [a] | RProd ms => map fst ms end.
Definition needed_precision (x : rnum) (prec : Z) : Z :=
  match x with RProd ms => prec + Z.log2_up (3 * Z.of_nat (list_sum (map snd ms))) | _ => prec end.
(** No generator is asked for more than [N] digits. *)
Definition draws_at_most (rng : Z -> nat -> bool) (x : rnum) (prec : Z) (N : nat) : Prop :=
  forall a, In a (atoms x) -> exists n, draws rng a (needed_precision x prec) n /\ (n <= N)%nat.
(** [rng'] has the same first [N] digits for the seeds in [x]. *)
Definition same_digits (N : nat) (x : rnum) (rng rng' : Z -> nat -> bool) : Prop :=
  forall a, In a (atoms x) -> forall i, (i < N)%nat -> rng' (seed_of a) i = rng (seed_of a) i.
(** The outcome of [f] is there, and it is the same for all generators that have the same first [N] digits: nothing else is drawn. *)
Definition decided_by {T} (N : nat) (xs : list rnum) (rng : Z -> nat -> bool) (f : (Z -> nat -> bool) -> nat -> option T) : Prop :=
  exists t, forall rng' fuel, (forall x, In x xs -> same_digits N x rng rng') -> (N <= fuel)%nat -> f rng' fuel = Some t.
