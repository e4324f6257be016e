(** Specification of native integers: platforms and values of the types. *)
From Coq Require Import ZArith.
From Verif Require Import Native.
Open Scope Z_scope.

(** A platform: types do not get smaller, and FLINT's slong holds a long. *)
Definition platform_ok (pl : platform) : Prop :=
  1 <= short_bits pl /\ short_bits pl <= int_bits pl /\ int_bits pl <= long_bits pl /\ long_bits pl <= llong_bits pl /\ long_bits pl <= slong_bits pl.
(** [v] is a value of the type [t]. *)
Definition in_range (pl : platform) (t : native) (v : Z) : Prop :=
  if is_signed t then - 2 ^ (bits pl t - 1) <= v < 2 ^ (bits pl t - 1) else 0 <= v < 2 ^ bits pl t.
