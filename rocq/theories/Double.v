(** Conversions to double, with overflow to the infinities. *)
From Coq Require Import ZArith QArith Qcanon Bool List.
From Verif Require Import Arf Arb Real Gen Ring Module Element Loops.
Import ListNotations.
Open Scope Z_scope.

(** The doubles that a conversion can return: a finite one, with its value, or an infinity. *)
Inductive double := DFin (d : arf) | DInf (negative : bool).

(** src/arf.cc:101 operator double (arf_get_d, ARF_RND_NEAR): [arf_to_double] rounds without an upper
    bound on the exponents; what does not fit is an infinity. *)
Definition arf_get_d (a : arf) : double :=
  let d := arf_to_double a in
  if arf_ltb (arf_abs d) (mkArf 1 1024) then DFin d else DInf (am a <? 0).
(** lbound == ubound, src/element.cc:842 *)
Definition double_eqb (x y : double) : bool :=
  match x, y with DFin a, DFin b => arf_eqb a b | DInf s, DInf t => Bool.eqb s t | _, _ => false end.

(** src/arb.cc:321 *)
Definition arb_get_d (x : arb) : double := arf_get_d (mid x).
(** src/real_number.cc:40-42 *)
Definition num_get_d (rng : Z -> nat -> bool) (fuel : nat) (x : rnum) : option double :=
  option_map arf_get_d (num_arf rng fuel x ARF_DOUBLE_PRECISION).

Section Elements.
  Context {A : ring}.
  Variable mag_up : arf -> arf.
  Variable garb : gen -> Z -> arb.
  Variable carb : car A -> Z -> arb.
  (** src/element.cc:809-847 *)
  Definition elem_get_d (rounds : nat) (x : elem A) : option double :=
    match to_rational x with
    | Some q => Some (arf_get_d (round_q NEAR 53 (qc_num q) (qc_den q) 0))
    | None => search rounds (fun prec => bounds_agree arf_get_d double_eqb (elem_arb mag_up garb carb rounds x prec)) 55
    end.
End Elements.
