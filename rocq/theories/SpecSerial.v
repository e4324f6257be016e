(** Specification for serialization: which numbers of two processes correspond. *)
From Coq Require Import ZArith QArith Qcanon Bool List Reals.
From Verif Require Import Arf Arb Real Gen SpecGen Ring SpecRing Module Element SpecModule Factory.
Import ListNotations.
Open Scope Z_scope.

(** The real number [g] exists in a process. *)
Definition alive (st : state) (g : gen) : Prop := exists x o, lookup (objs st) x = Some o /\ gen_of x o = g.
(** All the generators of an element exist. *)
Definition alive_elem {A} (st : state) (x : elem A) : Prop := Forall (alive st) (basis (emodule x)).

(** The random number with id [i] in the process [st] is the one with id [j] in the
    process [s]: they have the same seed (and the same bounds). *)
Definition corresponds (st s : state) (i j : Z) : Prop :=
  exists a b, lookup (objs st) i = Some (OAtom a) /\ lookup (objs s) j = Some (OAtom b) /\ atom_eqb a b = true.

(** Values of the random numbers in the two processes that are values of the same numbers. *)
Definition consistent (st s : state) (rho rho' : Z -> R) : Prop := forall i j, corresponds st s i j -> rho i = rho' j.

(** The random number [i] takes part in a generator of [x]. *)
Definition occurs {A} (x : elem A) (i : Z) : Prop := exists g, In g (basis (emodule x)) /\ (0 < expo g i)%nat.
(** Both processes have created the random numbers that occur in [x] in the same order. *)
Definition same_order {A} (x : elem A) (st s : state) : Prop :=
  forall i j i' j', occurs x i -> occurs x j -> corresponds st s i i' -> corresponds st s j j' -> i < j -> i' < j'.
(** The seed of a random number. *)
Definition seed_of (a : atom) : Z := match a with ARandom sd => sd | AConstr _ _ sd => sd end.
