(** Products with any exponents that fit into an int, such as those that are loaded from archives: the
    factors of an archive are not checked (real_number_product.cc:571-591), the assertions in the
    constructor (lines 417-421) are not there in release builds, and do not mention negative exponents
    unless there is a single factor. *)
From Coq Require Import ZArith QArith Bool List.
From Verif Require Import Arf Real.
Import ListNotations.
Open Scope Z_scope.

(** src/real_number_product.cc:555-560 totalDegree.  Simplification: no overflow (see Machine.v). *)
Definition int_degree (ms : list (atom * Z)) : Z := fold_right (fun m n => snd m + n) 0 ms.

Inductive approximation :=
| Undefined (* the conversion of an infinity or NaN to long *)
| Waiting   (* no bit set among the digits of a factor that were looked at *)
| Approximated (a : arf).

(** src/real_number_product.cc:519-553 arf_.  The loop over j does nothing for negative exponents; the
    argument of log2 is three times the degree.  [ceil(log2)] is exact here (see FloatLog.v). *)
Definition int_arf_prod (rng : Z -> nat -> bool) (fuel : nat) (ms : list (atom * Z)) (prec : Z) : approximation :=
  let nfactors := int_degree ms in
  if nfactors * 2 + (nfactors - 1) + 1 <=? 0 then Undefined
  else match mul_factors rng fuel (working_prec nfactors prec) (flat_map (fun m => repeat (fst m) (Z.to_nat (snd m))) ms) (arf_of_Z 1) with
       | None => Waiting
       | Some r => Approximated (arf_round NEAR (prec + 1) r)
       end.
