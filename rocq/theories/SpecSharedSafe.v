(** Specification for SharedMany.v: what calls can return when the caches of numbers overflow *)
From Coq Require Import ZArith QArith List Reals.
From Verif Require Import Arf Arb SpecArf Real Shared SpecShared.
Import ListNotations.

(** A random number, or one from an interval: the right value; or 0, unless the precision is 54 or 64; or, for a number
    from an interval, the first approximation that it was made from. *)
Definition possible_atom (rng : Z -> nat -> bool) (a : atom) (prec : Z) (v : arf) : Prop :=
  (exists fuel, num_arf rng fuel (RAtom a) prec = Some v) \/
  (prec <> 54%Z /\ prec <> 64%Z /\ arf2R v = 0%R) \/
  match a with AConstr initial _ _ => (arf_bits initial <= prec)%Z /\ arf2R v = arf2R initial | ARandom _ => False end.
(** A product: 0, unless the precision is 54 or 64; or a product, computed as it should be, of such values of its factors. *)
Definition possible (rng : Z -> nat -> bool) (x : rnum) (prec : Z) (v : arf) : Prop :=
  match x with
  | RRat _ => (exists fuel, num_arf rng fuel x prec = Some v) \/ (prec <> 54%Z /\ prec <> 64%Z /\ arf2R v = 0%R)
  | RAtom a => possible_atom rng a prec v
  | RProd ms => (prec <> 54%Z /\ prec <> 64%Z /\ arf2R v = 0%R) \/
      exists got, Forall2 (fun a => possible_atom rng a (working_prec (Z.of_nat (length (factors ms))) prec)) (factors ms) got /\
        v = arf_round NEAR (prec + 1) (fold_left (arf_mul (working_prec (Z.of_nat (length (factors ms))) prec) NEAR) got (arf_of_Z 1))
  end.
