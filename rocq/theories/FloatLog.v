(** Model of the two places where a precision is computed with the floating point logarithm of the C library.  The other
    files of the model (Real.v, Loops.v) compute this logarithm exactly. *)
From Coq Require Import ZArith QArith Reals List.
From Flocq Require Import Core.
From Verif Require Import Arf Arb Real Gen Ring Module Element Loops.
Import ListNotations.
Open Scope Z_scope.

(** An operation on doubles: the exact result, rounded to 53 bits, ties to even. *)
Definition fl (x : R) : R := round radix2 (FLT_exp (-1074) 53) ZnearestE x.

Section Library.
  (** The function [log2] of the C library. *)
  Variable clog2 : R -> R.

  (** src/real_number_product.cc:532 static_cast<long>(ceil(log2(static_cast<double>(nfactors * 2 + (nfactors - 1)) + 1))) *)
  Definition extra_bits (nfactors : Z) : Z := Zceil (clog2 (fl (fl (IZR (nfactors * 2 + (nfactors - 1))) + 1))).
  (** src/element.cc:195 numeric_cast<long>(ceil(log2(numeric_cast<double>(rank)))) *)
  Definition rank_bits (rank : Z) : Z := Zceil (clog2 (fl (IZR rank))).

  Variable rng : Z -> nat -> bool.
  (** src/real_number_product.cc:519-553 RealNumberProduct::arf_ *)
  Definition arf_prod_fl (fuel : nat) (ms : list (atom * nat)) (prec : Z) : option arf :=
    let fs := factors ms in
    let wp := prec + extra_bits (Z.of_nat (length fs)) in
    option_map (arf_round NEAR (prec + 1)) (mul_factors rng fuel wp fs (arf_of_Z 1)).
  (** src/real_number.cc:195-219 RealNumberBase::arf *)
  Definition num_arf_fl (fuel : nat) (x : rnum) (prec : Z) : option arf :=
    let prec := if prec <? 1 then 0 else prec in
    match x with
    | RRat q => Some (arf_rational q prec)
    | RAtom a => arf_atom rng fuel a prec
    | RProd ms => arf_prod_fl fuel ms prec
    end.
End Library.

Section Elements.
  Context {A : ring}.
  Variable clog2 : R -> R.
  Variable mag_up : arf -> arf.
  Variable garb : gen -> Z -> arb.
  Variable carb : car A -> Z -> arb.
  (** src/element.cc:190-207 *)
  Definition elem_arb_fl (rounds : nat) (x : elem A) (accuracy : Z) : option arb :=
    if negb (nonzero x) then Some (arb_of_Z 0)
    else arb_loop mag_up garb carb rounds x accuracy (accuracy + rank_bits clog2 (Z.of_nat (rank (emodule x)))).
End Elements.
