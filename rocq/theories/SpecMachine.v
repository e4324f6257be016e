(** Specification: products whose exponents are machine integers represent products with unbounded exponents.  Only data types
    of the models are used. *)
From Coq Require Import ZArith Bool List.
From Verif Require Import Gen SpecGen Machine.
Import ListNotations.
Open Scope Z_scope.

(** The product as it is stored, if its exponents could have any size. *)
Definition stored (g : gen) : mgen :=
  match g with
  | GRat q => MRat q
  | GAtom i => MAtom i
  | GProd ms => MProd (map (fun m => (fst m, Z.of_nat (snd m))) ms)
  end.
(** All exponents are at most 2^31 - 1. *)
Definition storable (g : gen) : Prop := forall i, Z.of_nat (expo g i) <= 2 ^ 31 - 1.
(** What is stored are ints. *)
Definition ints (g : mgen) : Prop :=
  match g with MProd ms => forall i e, In (i, e) ms -> - 2 ^ 31 <= e <= 2 ^ 31 - 1 | _ => True end.
(** Whatever happens at an overflow, the result is an int again (or nothing at all). *)
Definition machine (over : Z -> option Z) : Prop := forall z w, over z = Some w -> - 2 ^ 31 <= w <= 2 ^ 31 - 1.
(** Degrees that fit into an int. *)
Definition small (g : gen) : Prop := Z.of_nat (degree g) <= 2 ^ 31 - 1.
Definition stored_result (r : result gen) : result mgen := match r with Ok z => Ok (stored z) | Err e => Err e end.
Definition stored_quotient (r : result (option gen)) : result (option mgen) := match r with Ok z => Ok (option_map stored z) | Err e => Err e end.
(** Overflow has undefined behaviour; on the usual machines the result wraps around. *)
Definition undefined (z : Z) : option Z := None.
Definition wraps (z : Z) : option Z := Some ((z + 2 ^ 31) mod 2 ^ 32 - 2 ^ 31).
(** [x], x * x, (x * x) * (x * x), ...: [n] times. *)
Fixpoint squared (mul : mgen -> mgen -> option (result mgen)) (n : nat) (x : mgen) : option (result mgen) :=
  match n with
  | O => Some (Ok x)
  | S k => match squared mul k x with Some (Ok y) => mul y y | r => r end
  end.
