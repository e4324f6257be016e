(** Model of RealNumber::random(lower, upper, seed) and RealNumber::random(double, seed),
    src/constrained_random_real_number.cc:139-229. *)
From Coq Require Import ZArith QArith Bool List.
From Verif Require Import Arf Arb Real.
Import ListNotations.
Open Scope Z_scope.

(** Infinities of [double] reach FLINT functions whose result is not
    specified: [Unspecified].  [Throws] is the std::logic_error. *)
Inductive outcome (T : Type) := Returns (x : T) | Throws | Unspecified.
Arguments Returns {T}. Arguments Throws {T}. Arguments Unspecified {T}.

Section RandomIn.
  (** GMP's generator, seeded: [urandomm seed n] is the first value of mpz_urandomm (lines 180-184). *)
  Variable urandomm : Z -> Z -> Z.

  (** src/constrained_random_real_number.cc:143-198.  That [get_si] truncates exponents of more than 63 bits is not modelled. *)
  Definition random_in (lower upper : arf) (seed : Z) : outcome rnum :=
    (* 144-145 *)
    if arf_eqb lower (arf_of_Z 0) && arf_eqb upper (arf_of_Z 1) then Returns (RAtom (ARandom seed))
    (* 147-149 *)
    else if arf_leb upper lower then Throws
    else
      (* 156-160 *)
      let lower_mantissa := arf_mantissa lower in
      let lower_exponent := arf_exponent lower in
      let upper_mantissa := arf_mantissa upper in
      let upper_exponent := arf_exponent upper in
      (* 165-169 *)
      let '(upper_mantissa, upper_exponent) :=
        if lower_exponent <? upper_exponent then (upper_mantissa * 2 ^ (upper_exponent - lower_exponent), lower_exponent) else (upper_mantissa, upper_exponent) in
      (* 171-175 *)
      let '(lower_mantissa, lower_exponent) :=
        if upper_exponent <? lower_exponent then (lower_mantissa * 2 ^ (lower_exponent - upper_exponent), upper_exponent) else (lower_mantissa, lower_exponent) in
      (* 177-186 *)
      let length := upper_mantissa - lower_mantissa in
      let mantissa := urandomm seed length + lower_mantissa in
      (* 188-196 *)
      let e := lower_exponent in
      let initial := arf_of_mant_exp mantissa e in
      Returns (RAtom (AConstr initial e seed)).

  (** The C library's nextafter for finite doubles: the distance to the next double is a power
      of two with this exponent, away from zero and towards zero. *)
  Definition away_pos (a : arf) : Z := if am a =? 0 then -1074 else Z.max (arf_expo a - 53) (-1074).
  Definition towards_pos (a : arf) : Z := if Z.abs (arf_mantissa a) =? 1 then Z.max (arf_expo a - 54) (-1074) else away_pos a.
  (** [None]: infinity. *)
  Definition finite_double (a : arf) : option arf := if arf_leb (mkArf 1 1024) (arf_abs a) then None else Some a.
  Definition next_up (a : arf) : option arf := finite_double (arf_add_exact a (mkArf 1 (if 0 <=? am a then away_pos a else towards_pos a))).
  Definition next_down (a : arf) : option arf := option_map arf_neg (next_up (arf_neg a)).

  (** src/constrained_random_real_number.cc:204-229 for a finite double [x].  The annotation (64, NEAR) applies to
      all operations of the expressions in lines 219-220.  The assertions in 223-224 are not modelled: C43 shows that they hold. *)
  Definition third (a b : arf) : option arf := arf_div 64 NEAR (arf_add 64 NEAR a b) (arf_of_Z 3).
  Definition random_double (x : arf) (seed : Z) : outcome rnum :=
    match next_down x, next_up x with
    | Some lower, Some upper =>
        match third lower (arf_mul 64 NEAR (arf_of_Z 2) x), third (arf_mul 64 NEAR (arf_of_Z 2) x) upper with
        | Some lower, Some upper => random_in lower upper seed
        | _, _ => Unspecified
        end
    | _, _ => Unspecified
    end.
End RandomIn.
