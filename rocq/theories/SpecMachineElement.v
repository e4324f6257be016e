(** Specification: elements whose generators are stored with machine integers as exponents.  Only data types of the models and
    SpecMachine.v are used. *)
From Coq Require Import ZArith Bool List.
From Verif Require Import Gen SpecGen Ring Module Element Machine SpecMachine MachineElement.
Import ListNotations.
Open Scope Z_scope.

Definition stored_module {A} (M : module A) : mmodule A := mkMModule (map stored (basis M)) (mring M).
Definition stored_elem {A} (x : elem A) : melem A := mkMElem (stored_module (emodule x)) (coeffs x).
(** A defined result: [r], as it is stored. *)
Definition stored_as {T U} (f : T -> U) (r : result T) : outcome U := Some (match r with Ok z => Ok (f z) | Err e => Err e end).
(** Generators whose degree fits into an int. *)
Definition low {A} (x : elem A) : Prop := forall g, In g (basis (emodule x)) -> Z.of_nat (degree g) <= 2 ^ 31 - 1.
(** Elements whose products have such generators. *)
Definition low_product {A} (x y : elem A) : Prop :=
  forall g h, In g (basis (emodule x)) -> In h (basis (emodule y)) -> Z.of_nat (degree g + degree h) <= 2 ^ 31 - 1.
(** No generator has a degree larger than [d]. *)
Definition degrees {A} (x : elem A) (d : Z) : Prop := forall g, In g (basis (emodule x)) -> Z.of_nat (degree g) <= d.
(** [x], x * x, (x * x) * x, ...: [n] multiplications. *)
Fixpoint times {A} (mul : melem A -> melem A -> outcome (melem A)) (n : nat) (x : melem A) : outcome (melem A) :=
  match n with
  | O => Some (Ok x)
  | S k => match times mul k x with Some (Ok y) => mul y x | r => r end
  end.
