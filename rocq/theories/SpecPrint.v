(** Specification of printed elements: what a text denotes. *)
From Coq Require Import ZArith QArith Qcanon Bool List Reals.
From Verif Require Import Gen SpecGen Ring SpecRing Module Element SpecModule SpecLoops Print.
Import ListNotations.
Open Scope R_scope.

(** Reading a sum of products from left to right: the sum of the finished summands, sign and value of the
    current summand, and whether a factor has to come next. *)
Fixpoint calculate {A} (S : semantics A) (v : gen -> R) (factor : bool) (total sign prod : R) (l : list (token (car A))) : option R :=
  match factor, l with
  | true, TCoeff c :: l' => calculate S v false total sign (prod * val S c) l'
  | true, TGen g :: l' => calculate S v false total sign (prod * v g) l'
  | true, TZero :: l' => calculate S v false total sign (prod * 0) l'
  | false, TTimes :: l' => calculate S v true total sign prod l'
  | false, TPlus :: l' => calculate S v true (total + sign * prod) 1 1 l'
  | false, TMinus :: l' => calculate S v true (total + sign * prod) (-1) 1 l'
  | false, [] => Some (total + sign * prod)
  | _, _ => None
  end.
(** The number denoted by the text, if it is well-formed; a sign can precede the first summand. *)
Definition reads {A} (S : semantics A) (rho : Z -> R) (l : list (token (car A))) : option R :=
  match l with
  | TNeg :: l' => calculate S (gen_val rho) true 0 (-1) 1 l'
  | _ => calculate S (gen_val rho) true 0 1 1 l
  end.
(** operator< of the coefficients is the order of the numbers. *)
Definition orders {A} (S : semantics A) (p : par A) (cltb : car A -> car A -> bool) : Prop :=
  forall c d, mem S p c -> mem S p d -> (cltb c d = true <-> val S c < val S d).
(** Generators that are not extremely close to each other, compared to the relative error of the library's balls. *)
Definition apart (rho : Z -> R) (g h : gen) : Prop := code_error * (Rabs (gen_val rho g) + Rabs (gen_val rho h)) < Rabs (gen_val rho g - gen_val rho h).
