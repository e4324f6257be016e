(** Specification for IntExponents.v. *)
From Coq Require Import ZArith List Reals.
From Verif Require Import Real SpecReal Machine.
Import ListNotations.
Open Scope R_scope.

(** The product of the factors, each to the power of its exponent. *)
Fixpoint int_prod_value (rng : Z -> nat -> bool) (ms : list (atom * Z)) (x : R) : Prop :=
  match ms with
  | [] => x = 1
  | (a, k) :: ms' => exists y z, atom_value rng a y /\ int_prod_value rng ms' z /\ x = powerRZ y k * z
  end.
(** The same for the products of Machine.v; [rho] gives the values of the factors. *)
Definition monomial_value (rho : Z -> R) (ms : list (Z * Z)) : R := fold_right (fun m x => powerRZ (rho (fst m)) (snd m) * x) 1 ms.
