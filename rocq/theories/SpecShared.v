(** Specification for Shared.v *)
From Coq Require Import ZArith QArith List.
Import ListNotations.
From Verif Require Import Arf Arb Real Shared.

(** [f prec] is what arf(prec) of x returns when nothing else goes on. *)
Definition approximates (rng : Z -> nat -> bool) (x : rnum) (f : Z -> arf) : Prop :=
  forall prec, exists fuel, num_arf rng fuel x prec = Some (f prec).

(** The numbers whose approximation uses no other number. *)
Definition on_its_own (x : rnum) : Prop := match x with RRat _ => True | RAtom (ARandom _) => True | _ => False end.

(** How many steps a schedule gives to a thread. *)
Definition steps_of (t : nat) (events : list event) : nat :=
  length (filter (fun e => match e with Step u => Nat.eqb u t | Call _ _ => false end) events).

(** [digits seed prec] is what arf(prec) of the random number with this seed returns when nothing else goes on. *)
Definition digits_of (rng : Z -> nat -> bool) (digits : Z -> Z -> arf) : Prop :=
  forall seed prec, exists fuel, arf_random rng fuel seed prec = Some (digits seed prec).
(** The precisions at which numbers are approximated when x.arf(prec) is called for the (x, prec) in [calls]: those of
    the calls, those at which a product asks its n factors (prec + log2(3 n), rounded up), and those at which a number from an interval
    asks for more digits than its first approximation has.  The precisions 54 and 64 have places of their own. *)
Inductive concerned (calls : rnum -> Z -> Prop) : rnum -> Z -> Prop :=
| concerned_itself x prec : calls x prec -> concerned calls x (Z.max 0 prec)
| concerned_factor ms prec a e : concerned calls (RProd ms) prec -> In (a, e) ms -> e <> O -> concerned calls (RAtom a) (prec + Z.log2_up (3 * Z.of_nat (fold_right (fun m n => (snd m + n)%nat) O ms)))
| concerned_inner initial e seed prec : concerned calls (RAtom (AConstr initial e seed)) prec -> (arf_bits initial <= prec)%Z -> concerned calls (RAtom (ARandom seed)) (prec - arf_bits initial).
