(** Specification vocabulary for floating point numbers and balls: what they
    denote.  Only the data types of the model are used, none of its functions. *)
From Coq Require Import ZArith Bool List Reals Lra.
From Flocq Require Import Core.
From Verif Require Import Arf Arb.
Open Scope R_scope.

(** The real number denoted by an [arf]. *)
Definition arf2R (a : arf) : R := (IZR (am a) * bpow radix2 (ae a))%R.

(** Flocq's integer rounding for each mode: nearest even, towards -oo, towards
    +oo, towards 0, away from 0. *)
Definition rndZ (md : rnd) : R -> Z :=
  match md with
  | NEAR => ZnearestE
  | FLOOR => Zfloor
  | CEIL => Zceil
  | DOWN => Ztrunc
  | UP => Zaway
  end.

(** [x] rounded to [prec] significant bits in mode [md]. *)
Definition rounded (prec : Z) (md : rnd) (x : R) : R :=
  round radix2 (FLX_exp prec) (rndZ md) x.

(** [v] is a point of the ball [x]. *)
Definition contains (x : arb) (v : R) : Prop :=
  match rad x with
  | None => True
  | Some r => Rabs (v - arf2R (mid x)) <= arf2R r
  end.

(** An answer that is [true] exactly if the relation holds for all pairs of
    points, and [false] exactly if it fails for all pairs of points. *)
Definition tri (Rel : R -> R -> Prop) (x y : arb) (o : option bool) : Prop :=
  (o = Some true <-> forall p q, contains x p -> contains y q -> Rel p q) /\
  (o = Some false <-> forall p q, contains x p -> contains y q -> ~ Rel p q).

(** An answer that is right for all points of the ball. *)
Definition sound (Rel : R -> R -> Prop) (x : arb) (q : R) (o : option bool) : Prop :=
  (o = Some true -> forall p, contains x p -> Rel p q) /\
  (o = Some false -> forall p, contains x p -> ~ Rel p q).

(** FLINT's rounding of radii never makes them smaller. *)
Definition mag_up_ok (mag_up : arf -> arf) : Prop :=
  forall r, 0 <= arf2R r -> arf2R r <= arf2R (mag_up r).

(** A positive precision, or ARF_PREC_EXACT. *)
Definition prec_ok (prec : option Z) : Prop := (match prec with Some p => 0 < p | None => True end)%Z.

(** Numbers with at most [q] bits, and IEEE double precision numbers (without
    an upper bound on the exponent). *)
Definition fits (q : Z) (c : R) : Prop := generic_format radix2 (FLX_exp q) c.
Definition is_double (c : R) : Prop := generic_format radix2 (FLT_exp (-1074) 53) c.
