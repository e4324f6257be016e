(** Specification of the work: how many digits of the generators are looked at. *)
From Coq Require Import ZArith QArith Qcanon Bool List Reals.
From Flocq Require Import Core.
From Verif Require Import Arf Arb Real SpecArf SpecReal Gen SpecGen Ring SpecRing Module Element SpecModule SpecLoops.
Import ListNotations.
Open Scope R_scope.

(** The sum of the absolute values of the terms of an element.  Compared with the absolute value of the element it says how much cancels. *)
Fixpoint sum_of_absolute_values {A} (S : semantics A) (rho : Z -> R) (gs : list gen) (cs : list (car A)) : R :=
  match gs, cs with
  | g :: gs', c :: cs' => Rabs (val S c * gen_val rho g) + sum_of_absolute_values S rho gs' cs'
  | _, _ => 0
  end.
(** At most [K] leading binary digits cancel when the terms of [x] are added. *)
Definition cancels {A} (S : semantics A) (rho : Z -> R) (x : elem A) (K : Z) : Prop :=
  sum_of_absolute_values S rho (basis (emodule x)) (coeffs x) <= bpow radix2 K * Rabs (value S rho x).
(** [u] and [w] have at most [D] leading binary digits in common. *)
Definition common_digits (u w : R) (D : Z) : Prop := Rabs u + Rabs w <= bpow radix2 D * Rabs (u - w).
(** The distance of [v] to the next integer is at least [2^-D] times [v]. *)
Definition integer_digits (v : R) (D : Z) : Prop := forall n : Z, Rabs v <= bpow radix2 D * Rabs (v - IZR n).
(** The radius of the coefficients' balls is at most four units in the last of [prec] binary digits. *)
Definition coefficients_precise {A} (S : semantics A) (carb : car A -> Z -> arb) (p : par A) : Prop :=
  forall c prec, mem S p c -> (5 <= prec)%Z -> exists r, rad (carb c prec) = Some r /\ arf2R r <= 4 * Rabs (val S c) * bpow radix2 (- prec).
(** The library's balls for the generators of [x], which are not zero; and precise balls for its coefficients. *)
Definition library_balls {A} (S : semantics A) (rng : Z -> nat -> bool) (names : Z -> atom) (rho : Z -> R) (garb : gen -> Z -> arb) (carb : car A -> Z -> arb) (x : elem A) : Prop :=
  code_values rng names rho /\ code_balls rng names garb (basis (emodule x)) /\ (forall g, In g (basis (emodule x)) -> gen_val rho g <> 0) /\
  coefficients_enclosed S carb (mring (emodule x)) /\ coefficients_precise S carb (mring (emodule x)).
(** The same balls for all precisions up to [P]. *)
Definition same_up_to {T} (P : Z) (f f' : T -> Z -> arb) : Prop := forall t prec, (prec <= P)%Z -> f' t prec = f t prec.
(** The precision that suffices for [acc] correct digits of [x] when [K] digits cancel. *)
Definition digits_needed {A} (x : elem A) (acc K : Z) : Z := (acc + K + 2 * Z.of_nat (rank (emodule x)) + 9)%Z.
(** The outcome of [f] is there, and it is the same for all balls that agree with the given ones up to precision [P]: nothing else is looked at. *)
Definition settled_by {A : ring} {T} (P : Z) (garb : gen -> Z -> arb) (carb : car A -> Z -> arb) (f : (gen -> Z -> arb) -> (car A -> Z -> arb) -> option T) : Prop :=
  exists t, forall garb' carb', same_up_to P garb garb' -> same_up_to P carb carb' -> f garb' carb' = Some t.
