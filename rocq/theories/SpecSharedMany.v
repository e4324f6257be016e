(** Specification for SharedMany.v *)
From Coq Require Import ZArith QArith List.
From Verif Require Import Arf Arb Real Shared SpecShared SharedMany.
Import ListNotations.

(** The calls that a schedule makes *)
Definition made (os : list occurrence) (x : rnum) (prec : Z) : Prop := exists t, In (Asks t x prec) os.
(** No number is approximated at 128 or more different precisions, other than 54 and 64. *)
Definition few_precisions (os : list occurrence) : Prop :=
  forall y, exists precs, (length precs < 128)%nat /\ forall p, concerned (made os) y p -> p = 54%Z \/ p = 64%Z \/ In p precs.
(** Nothing happens but in thread t. *)
Definition only (t : nat) (os : list occurrence) : Prop :=
  forall o, In o os -> match o with Asks u _ _ => u = t | Ticks u => u = t end.
(** How many steps a schedule gives to a thread *)
Definition ticks_of (t : nat) (os : list occurrence) : nat :=
  length (filter (fun o => match o with Ticks u => Nat.eqb u t | Asks _ _ _ => false end) os).
(** That many steps are enough for a call. *)
Definition enough (x : rnum) : nat :=
  match x with
  | RRat _ | RAtom (ARandom _) => 5
  | RAtom (AConstr _ _ _) => 11
  | RProd ms => 5 + 12 * fold_right (fun m n => (snd m + n)%nat) O ms
  end.
