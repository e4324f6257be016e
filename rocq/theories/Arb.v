(** Model of [src/arb.cc] / [exact-real/arb.hpp]: balls [mid +/- rad].
    FLINT's [arb_t] functions are external: comparisons follow their documented
    (exact) behaviour; the arithmetic is ball arithmetic whose radius is passed
    through an arbitrary function [mag_up] that may enlarge it (FLINT's 30 bit
    [mag_t] arithmetic rounds radii up by an undocumented amount). *)
From Coq Require Import ZArith Bool List.
From Verif Require Import Arf.
Open Scope Z_scope.

(** exact-real/arb.hpp class Arb. [rad = None] is an infinite radius.
    Simplification: the midpoint is finite (no NaN or infinite midpoint). *)
Record arb := mkArb { mid : arf; rad : option arf }.

(** Well-formed: the radius is not negative. *)
Definition arb_wf (x : arb) : Prop :=
  match rad x with None => True | Some r => 0 <= am r end.

Definition arb_wfb (x : arb) : bool :=
  match rad x with None => true | Some r => 0 <=? am r end.

(** src/arb.cc:79-81 Arb(Arf), 97-102 Arb(mpz_class), 63-66 Arb(Integer): exact. *)
Definition arb_of_arf (a : arf) : arb := mkArb a (Some arf_zero).
Definition arb_of_Z (n : Z) : arb := arb_of_arf (arf_of_Z n).

(** src/arb.cc:145-149 zero_pm_inf *)
Definition arb_zero_pm_inf : arb := mkArb arf_zero None.

(** Endpoints (exact). *)
Definition arb_lo (x : arb) : option arf := option_map (arf_sub_exact (mid x)) (rad x).
Definition arb_hi (x : arb) : option arf := option_map (arf_add_exact (mid x)) (rad x).

Definition opt2 (f : arf -> arf -> bool) (a b : option arf) : bool :=
  match a, b with Some x, Some y => f x y | _, _ => false end.

(** FLINT arb_lt, arb_gt, arb_le, arb_ge: true iff the relation holds for all
    pairs of points. *)
Definition arb_lt (x y : arb) : bool := opt2 arf_ltb (arb_hi x) (arb_lo y).
Definition arb_gt (x y : arb) : bool := arb_lt y x.
Definition arb_le (x y : arb) : bool := opt2 arf_leb (arb_hi x) (arb_lo y).
Definition arb_ge (x y : arb) : bool := arb_le y x.
(** FLINT arb_is_exact, arb_eq, arb_overlaps, arb_ne. *)
Definition arb_is_exact (x : arb) : bool :=
  match rad x with Some r => am r =? 0 | None => false end.
Definition arb_eq (x y : arb) : bool :=
  arb_is_exact x && arb_is_exact y && arf_eqb (mid x) (mid y).
Definition arb_ne (x y : arb) : bool := arb_lt x y || arb_lt y x.

(** src/arb.cc:177-185 *)
Definition op_lt (x y : arb) : option bool :=
  if arb_lt x y then Some true else if arb_ge x y then Some false else None.
(** src/arb.cc:187-195 *)
Definition op_gt (x y : arb) : option bool :=
  if arb_gt x y then Some true else if arb_le x y then Some false else None.
(** src/arb.cc:197-204 *)
Definition op_le (x y : arb) : option bool := option_map negb (op_gt x y).
(** src/arb.cc:206-213 *)
Definition op_ge (x y : arb) : option bool := option_map negb (op_lt x y).
(** src/arb.cc:215-223 *)
Definition op_eq (x y : arb) : option bool :=
  if arb_eq x y then Some true else if arb_ne x y then Some false else None.
(** src/arb.cc:225-232 *)
Definition op_ne (x y : arb) : option bool := option_map negb (op_eq x y).

(** arb_rel_accuracy_bits: top bit of midpoint minus top bit of radius minus 1. *)
Definition ARF_PREC_EXACT : Z := 2 ^ 63 - 1.
Definition rel_accuracy_bits (x : arb) : Z :=
  match rad x with
  | None => - ARF_PREC_EXACT
  | Some r =>
      if am r =? 0 then ARF_PREC_EXACT
      else if am (mid x) =? 0 then - ARF_PREC_EXACT
      else arf_expo (mid x) - arf_expo r - 1
  end.

(** src/arb.cc:315-319 operator pair<Arf, Arf>: arb_get_interval_arf with
    precision arb_rel_accuracy_bits.  FLINT does not specify precisions below 2:
    outcome [None].  Infinite radii also give [None] (the bounds are infinite). *)
Definition arb_interval (x : arb) : option (arf * arf) :=
  match rad x with
  | None => None
  | Some r =>
      let p := rel_accuracy_bits x in
      if p =? ARF_PREC_EXACT then Some (arf_sub_exact (mid x) r, arf_add_exact (mid x) r)
      else if p <? 2 then None
      else Some (arf_sub p FLOOR (mid x) r, arf_add p CEIL (mid x) r)
  end.

Section Arith.
  (** How FLINT rounds radii up. *)
  Variable mag_up : arf -> arf.

  (** Precision of an operation: [None] is ARF_PREC_EXACT. *)
  Definition round_mid (prec : option Z) (exact : arf) : arf :=
    match prec with None => exact | Some p => arf_round DOWN p exact end.
  (** Error bound: one unit in the last place if the midpoint was rounded. *)
  Definition round_err (prec : option Z) (exact : arf) : arf :=
    match prec with
    | None => arf_zero
    | Some p => let z := arf_round DOWN p exact in
                if arf_eqb z exact then arf_zero else mkArf 1 (arf_expo exact - p)
    end.
  Definition mk_ball (prec : option Z) (exact : arf) (r : option arf) : arb :=
    mkArb (round_mid prec exact)
          (option_map (fun r => mag_up (arf_add_exact r (round_err prec exact))) r).

  Definition rad2 (f : arf -> arf -> arf) (x y : option arf) : option arf :=
    match x, y with Some a, Some b => Some (f a b) | _, _ => None end.

  (** exact-real/yap/arb_assign_transformation.hpp:57-69 arb_add *)
  Definition arb_add (prec : option Z) (x y : arb) : arb :=
    mk_ball prec (arf_add_exact (mid x) (mid y)) (rad2 arf_add_exact (rad x) (rad y)).
  (** src/arb.cc:171-175 arb_neg *)
  Definition arb_neg (x : arb) : arb := mkArb (arf_neg (mid x)) (rad x).
  Definition arb_sub (prec : option Z) (x y : arb) : arb := arb_add prec x (arb_neg y).
  Definition arb_mul (prec : option Z) (x y : arb) : arb :=
    mk_ball prec (arf_mul_exact (mid x) (mid y))
      (rad2 (fun rx ry =>
         arf_add_exact (arf_mul_exact (arf_abs (mid x)) ry)
           (arf_add_exact (arf_mul_exact (arf_abs (mid y)) rx) (arf_mul_exact rx ry)))
         (rad x) (rad y)).
  (** arb_div: if the divisor contains zero the result is not finite.  Otherwise
      the radius is [(|mx| ry + |my| rx) / (|my| (|my| - ry))] rounded up, plus an
      ulp for the midpoint. *)
  Definition arb_div (prec : Z) (x y : arb) : arb :=
    match rad x, rad y with
    | Some rx, Some ry =>
        let low := arf_sub_exact (arf_abs (mid y)) ry in
        if am low <=? 0 then arb_zero_pm_inf
        else
          match arf_div prec DOWN (mid x) (mid y),
                arf_div 60 CEIL (arf_add_exact (arf_mul_exact (arf_abs (mid x)) ry)
                                               (arf_mul_exact (arf_abs (mid y)) rx))
                        (arf_mul_exact (arf_abs (mid y)) low) with
          | Some m, Some r => mkArb m (Some (mag_up (arf_add_exact r (mkArf 1 (arf_expo m + 1 - prec)))))
          | _, _ => arb_zero_pm_inf
          end
    | _, _ => arb_zero_pm_inf
    end.

  (** src/arb.cc:254-282 comparisons with rationals [n/d], [d > 0]. *)
  Definition arb_times_den (x : arb) (d : Z) : arb := arb_mul None x (arb_of_Z d).
  Definition opq_eq (x : arb) (n d : Z) : option bool := op_eq (arb_times_den x d) (arb_of_Z n).
  (** src/arb.cc:259-262: operator!= calls operator==. *)
  Definition opq_ne (x : arb) (n d : Z) : option bool := op_eq (arb_times_den x d) (arb_of_Z n).
  Definition opq_lt (x : arb) (n d : Z) : option bool := op_lt (arb_times_den x d) (arb_of_Z n).
  Definition opq_gt (x : arb) (n d : Z) : option bool := op_gt (arb_times_den x d) (arb_of_Z n).
  Definition opq_le (x : arb) (n d : Z) : option bool := op_le (arb_times_den x d) (arb_of_Z n).
  Definition opq_ge (x : arb) (n d : Z) : option bool := op_ge (arb_times_den x d) (arb_of_Z n).
End Arith.

(** src/arb.cc:85-90 Arb(mpq, precision): arb_set_fmpq divides with rounding towards zero;
    if the quotient is not exact, the error is one unit in the last place. *)
Definition arb_of_Q (mag_up : arf -> arf) (prec n d : Z) : arb :=
  let m := round_q DOWN prec n d 0 in
  if arf_eqb (arf_mul_exact m (arf_of_Z d)) (arf_of_Z n) then arb_of_arf m
  else mkArb m (Some (mag_up (mkArf 1 (arf_expo m - prec)))).
