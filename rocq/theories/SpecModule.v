(** Specification of modules and their elements: what they denote.  Only the data
    types of the model are used, none of its functions. *)
From Coq Require Import ZArith QArith Qcanon Bool List Reals Permutation.
From Verif Require Import Gen SpecGen Ring SpecRing Module.
Import ListNotations.
Open Scope R_scope.

(** The order of generators: by degree and then lexicographically, rationals first
    (this is what deglex computes, see C14). *)
Definition precedes (x y : gen) : Prop :=
  (rational x /\ ~ rational y) \/ (~ rational x /\ ~ rational y /\ deglex_before x y).
(** Every generator precedes all later ones. *)
Fixpoint ascending (l : list gen) : Prop :=
  match l with [] => True | g :: l' => (forall h, In h l' -> precedes g h) /\ ascending l' end.

(** The generators of a module: well-formed numbers in ascending order (so
    distinct, with at most one rational). *)
Definition module_wf {A} (M : module A) : Prop := Forall gen_wf (basis M) /\ ascending (basis M).

(** A list of generators that is obviously dependent: a generator is repeated, or
    there are two rational generators (at different positions). *)
Definition obviously_dependent (l : list gen) : Prop :=
  exists i j g h, i <> j /\ nth_error l i = Some g /\ nth_error l j = Some h /\ (g = h \/ (rational g /\ rational h)).

(** * Elements *)
From Verif Require Import Element.
(** The number denoted by coefficients and generators, for given values of the
    indeterminates: sum of coefficient * generator. *)
Fixpoint combination {A} (S : semantics A) (rho : Z -> R) (gs : list gen) (cs : list (car A)) : R :=
  match gs, cs with
  | g :: gs', c :: cs' => val S c * gen_val rho g + combination S rho gs' cs'
  | _, _ => 0
  end.
Definition value {A} (S : semantics A) (rho : Z -> R) (x : elem A) : R :=
  combination S rho (basis (emodule x)) (coeffs x).

(** Well-formed elements: one coefficient for each generator, in the ring of the module. *)
Definition elem_wf {A} (S : semantics A) (x : elem A) : Prop :=
  module_wf (emodule x) /\ length (coeffs x) = length (basis (emodule x)) /\ Forall (mem S (mring (emodule x))) (coeffs x).

(** The rational generator is not 0 (otherwise the generators are dependent). *)
Definition no_zero_gen (l : list gen) : Prop := ~ In (GRat 0%Qc) l.

(** When two elements can be combined at all: rational generators do not conflict,
    and there is a ring that contains both rings of coefficients. *)
Definition combinable {A} (M N : module A) : Prop :=
  (forall g h, In g (basis M) -> In h (basis N) -> rational g -> rational h -> g = h) /\
  (basis M = [] \/ basis N = [] \/ mring M = mring N \/ exists p, compositum (mring M) (mring N) = Ok p).

(** The usual case: elements over a fixed ring of coefficients whose only rational
    generator, if any, is 1. *)
Definition standard {A} (S : semantics A) (p : par A) (x : elem A) : Prop :=
  elem_wf S x /\ mring (emodule x) = p /\ forall q, In (GRat q) (basis (emodule x)) -> q = 1%Qc.

(** Two computations return elements that are ==. *)
Definition same {A} (l r : result (elem A)) : Prop := exists x y, l = Ok x /\ r = Ok y /\ equal x y = Ok true.
