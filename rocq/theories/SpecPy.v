(** Specification for Py.v *)
From Coq Require Import ZArith QArith Qcanon Bool List Reals.
From Verif Require Import Arf Arb SpecArf Gen SpecGen Ring SpecRing Module Element SpecModule Loops SpecLoops Py.
Import ListNotations.
Open Scope R_scope.

(** Python: l == r is True, for any number of rounds and whatever the approximations are. *)
Definition py_equal {A} (l r : py (elem A)) : Prop :=
  exists a b, l = Returns a /\ r = Returns b /\ forall mag_up garb carb rounds, py_richcmp mag_up garb carb rounds OpEq a b = Some (Returns true).
(** What the comparison operators mean. *)
Definition relation_of (op : py_op) (v w : R) : Prop :=
  match op with OpLt => v < w | OpLe => v <= w | OpEq => v = w | OpNe => v <> w | OpGt => v > w | OpGe => v >= w end.
(** [x] divides [y] in the ring of exact reals over [p]. *)
Definition divisor {A} (S : semantics A) (p : par A) (x y : elem A) : Prop :=
  exists z, standard S p z /\ forall rho, value S rho z * value S rho x = value S rho y.
(** The balls of the generators [gs] and of the coefficients contain them and get small. *)
Definition good_balls {A} (S : semantics A) (p : par A) (garb : gen -> Z -> arb) (carb : car A -> Z -> arb) (rho : Z -> R) (gs : list gen) : Prop :=
  generators_enclosed garb rho gs /\ (forall g, In g gs -> shrinks (garb g)) /\
  coefficients_enclosed S carb p /\ (forall c, mem S p c -> shrinks (carb c)).
(** [x] is the real number [v], whatever the indeterminates are. *)
Definition constant {A} (S : semantics A) (x : elem A) (v : R) : Prop := forall rho, value S rho x = v.
(** [x] is a square in the ring of exact reals over [p]. *)
Definition square_in {A} (S : semantics A) (p : par A) (x : elem A) : Prop := exists z, standard S p z /\ forall rho, value S rho z * value S rho z = value S rho x.
