(** Specification of the real numbers denoted by [RealNumber]s.  Only the data
    types of the model are used here, none of its functions. *)
From Coq Require Import ZArith QArith Reals List Qreals.
From Flocq Require Import Core.
From Verif Require Import Arf Arb SpecArf Real.
Import ListNotations.
Open Scope R_scope.

(** First [n] binary digits of a stream, as an integer. *)
Fixpoint prefix (s : nat -> bool) (n : nat) : Z :=
  match n with
  | O => 0%Z
  | S k => (2 * prefix s k + (if s k then 1 else 0))%Z
  end.

(** [y = 0.s0 s1 s2 ...] in binary. *)
Definition stream_value (s : nat -> bool) (y : R) : Prop :=
  forall n, IZR (prefix s n) <= y * bpow radix2 (Z.of_nat n) <= IZR (prefix s n) + 1.

(** The real number denoted by an atom: a random number in [0,1], or
    [initial + inner * 2^(e-1)]. *)
Definition atom_value (rng : Z -> nat -> bool) (a : atom) (x : R) : Prop :=
  match a with
  | ARandom seed => stream_value (rng seed) x
  | AConstr initial e seed =>
      exists y, stream_value (rng seed) y /\ x = arf2R initial + y * bpow radix2 (e - 1)
  end.

(** Product of powers. *)
Fixpoint prod_value (rng : Z -> nat -> bool) (ms : list (atom * nat)) (x : R) : Prop :=
  match ms with
  | [] => x = 1
  | (a, k) :: ms' => exists y z, atom_value rng a y /\ prod_value rng ms' z /\ x = y ^ k * z
  end.

Definition num_value (rng : Z -> nat -> bool) (x : rnum) (v : R) : Prop :=
  match x with
  | RRat q => v = Q2R q
  | RAtom a => atom_value rng a v
  | RProd ms => prod_value rng ms v
  end.

(** Well-formed atoms: the digit stream is not constantly 0 (otherwise
    RandomRealNumber::arf_ does not terminate), and the initial part of a
    constrained number is a multiple of [2^e] (as random(lower, upper) makes it). *)
Definition nonzero_stream (s : nat -> bool) : Prop := exists i, s i = true.
Definition atom_ok (rng : Z -> nat -> bool) (a : atom) : Prop :=
  match a with
  | ARandom seed => nonzero_stream (rng seed)
  | AConstr initial e seed => nonzero_stream (rng seed) /\ exists m, arf2R initial = IZR m * bpow radix2 e
  end.
Definition num_ok (rng : Z -> nat -> bool) (x : rnum) : Prop :=
  match x with
  | RRat _ => True
  | RAtom a => atom_ok rng a
  | RProd ms => ms <> [] /\ (forall a k, In (a, k) ms -> atom_ok rng a /\ (0 < k)%nat)
  end.

(** [a] approximates [v] with relative accuracy [prec]: the error is at most
    one unit of the [prec]-th bit after the leading bit of [a]. *)
Definition accurate (prec : Z) (a : arf) (v : R) : Prop :=
  Rabs (v - arf2R a) <= bpow radix2 (mag radix2 (arf2R a) - 1 - prec).
Definition not_product (x : rnum) : Prop := match x with RProd _ => False | _ => True end.

(** Radii are rounded upwards (FLINT's mag_t), by at most a factor of two. *)
Definition mag_up_within (mag_up : arf -> arf) : Prop := forall r, 0 <= arf2R r -> arf2R r <= arf2R (mag_up r) <= 2 * arf2R r.
