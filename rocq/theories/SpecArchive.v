(** Specification for archives that were not (or not necessarily) written by this library. *)
From Coq Require Import ZArith QArith Qcanon Bool List Reals.
From Verif Require Import Arf Arb Real Gen SpecGen Ring SpecRing Module Element SpecModule Factory SpecFactory SpecSerial Serial.
Import ListNotations.
Open Scope Z_scope.

(** A product that could have come out of a multiplication: all its exponents are positive and they add up to at least two. *)
Definition proper (g : gen) : Prop :=
  match g with
  | GProd factors => Forall (fun f => (0 < snd f)%nat) factors /\ (2 <= fold_right (fun f n => snd f + n) 0 factors)%nat
  | _ => True
  end.
Definition proper_elem {A} (x : elem A) : Prop := Forall proper (basis (emodule x)).

(** A number that the library could have created itself: it exists in the process, and it is in normal form. *)
Definition valid (s : state) (g : gen) : Prop := gen_wf g /\ alive s g.
(** An element that the library could have created itself. *)
Definition valid_elem {A} (S : semantics A) (s : state) (x : elem A) : Prop := elem_wf S x /\ alive_elem s x.
(** The coefficients in an archive are elements of the ring. *)
Definition coefficients_in {A} (S : semantics A) (x : elem A) : Prop := Forall (mem S (mring (emodule x))) (coeffs x).
(** There is at most one live object for each number. *)
Definition interned (s : state) : Prop :=
  forall x o y p, lookup (objs s) x = Some o -> lookup (objs s) y = Some p -> gen_of x o = gen_of y p -> x = y.
