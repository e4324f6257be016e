(** Specification for operations on approximations. *)
From Coq Require Import ZArith QArith Qcanon Bool List Reals.
From Flocq Require Import Core.
From Verif Require Import Arf Arb SpecArf Gen SpecGen Ring SpecRing Module Element SpecModule.
Import ListNotations.
Open Scope R_scope.

(** The ball contains [v] (and its radius is not negative). *)
Definition encloses (b : arb) (v : R) : Prop := arb_wf b /\ contains b v.
(** [v] is at most [k] radii away from the midpoint; for [k = 1] this is [encloses].  (The
    balls of random real numbers are sometimes too small, but [k = 4] holds for all
    generators, see C07.) *)
Definition within (k : R) (b : arb) (v : R) : Prop :=
  arb_wf b /\ match rad b with None => True | Some r => Rabs (v - arf2R (mid b)) <= k * arf2R r end.
Definition generators_within (k : R) (garb : gen -> Z -> arb) (rho : Z -> R) (gs : list gen) : Prop :=
  forall g prec, In g gs -> (2 <= prec)%Z -> within k (garb g prec) (gen_val rho g).
(** [u] is [v] up to a relative error. *)
Definition perturbed (eps : R) (v u : R) : Prop := Rabs (u - v) <= eps * Rabs v.
(** The balls of the generators contain the generators, for the given values of the indeterminates. *)
Definition generators_enclosed (garb : gen -> Z -> arb) (rho : Z -> R) (gs : list gen) : Prop :=
  forall g prec, In g gs -> (2 <= prec)%Z -> encloses (garb g prec) (gen_val rho g).
(** The balls of the coefficients contain the coefficients. *)
Definition coefficients_enclosed {A} (S : semantics A) (carb : car A -> Z -> arb) (p : par A) : Prop :=
  forall c prec, mem S p c -> (0 < prec)%Z -> encloses (carb c prec) (val S c).
(** The radius gets small: at most a constant times 2^-prec. *)
Definition shrinks (f : Z -> arb) : Prop :=
  exists K p0, forall prec, (p0 <= prec)%Z -> exists r, rad (f prec) = Some r /\ arf2R r <= K * bpow radix2 (- prec).
(** FLINT's rounding of radii at most doubles them. *)
Definition mag_up_tight (mag_up : arf -> arf) : Prop := forall r, 0 <= arf2R r -> arf2R (mag_up r) <= 2 * arf2R r.
(** The generators are linearly independent over the ring, for the given values of
    the indeterminates: a combination with value zero is trivial. *)
Definition independent {A} (S : semantics A) (p : par A) (rho : Z -> R) (gs : list gen) : Prop :=
  forall z : elem A, elem_wf S z -> mring (emodule z) = p -> incl (basis (emodule z)) gs -> value S rho z = 0 -> Forall (fun c => c = czero A) (coeffs z).
(** The floor of coefficients is right for integers (also for Q, where the code's floor truncates). *)
Definition floors_integers {A} (S : semantics A) : Prop := forall p c n, mem S p c -> val S c = IZR n -> cfloor c = n.

(** The balls of the code: the real number of a generator, given the indeterminates
    (by id); and what RealNumber::arb returns for it. *)
From Verif Require Import Real SpecReal.
Definition rnum_of (names : Z -> atom) (g : gen) : rnum :=
  match g with
  | GRat q => RRat q
  | GAtom i => RAtom (names i)
  | GProd ms => RProd (map (fun '(i, e) => (names i, e)) ms)
  end.
Definition code_balls (rng : Z -> nat -> bool) (names : Z -> atom) (garb : gen -> Z -> arb) (gs : list gen) : Prop :=
  forall g prec, In g gs -> (2 <= prec)%Z -> exists fuel, num_arb rng fuel (rnum_of names g) prec = Some (garb g prec).
(** The values of the indeterminates. *)
Definition code_values (rng : Z -> nat -> bool) (names : Z -> atom) (rho : Z -> R) : Prop :=
  forall i, atom_ok rng (names i) /\ atom_value rng (names i) (rho i).

(** * The hypotheses about balls in the properties *)
(** The balls of the generators and coefficients of [x] contain them; they get small. *)
Definition enclosing_balls {A} (S : semantics A) (garb : gen -> Z -> arb) (carb : car A -> Z -> arb) (rho : Z -> R) (x : elem A) : Prop :=
  generators_enclosed garb rho (basis (emodule x)) /\ coefficients_enclosed S carb (mring (emodule x)).
Definition shrinking_balls {A} (S : semantics A) (garb : gen -> Z -> arb) (carb : car A -> Z -> arb) (x : elem A) : Prop :=
  (forall g, In g (basis (emodule x)) -> shrinks (garb g)) /\ (forall c, mem S (mring (emodule x)) c -> shrinks (carb c)).
(** The same for the balls of the code, whose ring's arb is right. *)
Definition code_setting {A} (S : semantics A) (rng : Z -> nat -> bool) (names : Z -> atom) (rho : Z -> R) (garb : gen -> Z -> arb) (carb : car A -> Z -> arb) (x : elem A) : Prop :=
  code_values rng names rho /\ code_balls rng names garb (basis (emodule x)) /\
  coefficients_enclosed S carb (mring (emodule x)) /\ (forall c, mem S (mring (emodule x)) c -> shrinks (carb c)).
(** With enough rounds the outcome is [r]. *)
Definition eventually {T} (f : nat -> option T) (r : T) : Prop := exists N, forall n, (N <= n)%nat -> f n = Some r.
(** The elements of standard modules over [p] with generators among [gs]. *)
Definition among {A} (S : semantics A) (p : par A) (gs : list gen) (x : elem A) : Prop := standard S p x /\ incl (basis (emodule x)) gs.
(** The double closest to [v], ties to even, with gradual underflow. *)
Definition nearest_double (v : R) : R := round radix2 (FLT_exp (-1074) 53) ZnearestE v.
(** [n = floor(v)], [n = ceil(v)] in terms of integers. *)
Definition the_floor (n : Z) (v : R) : Prop := IZR n <= v < IZR n + 1.
Definition the_ceil (n : Z) (v : R) : Prop := IZR n - 1 < v <= IZR n.
(** The relative error that the balls of the code can hide. *)
Definition code_error : R := 3 * bpow radix2 (-63).
