(** Specification of the factories of modules. *)
From Coq Require Import ZArith QArith Qcanon Bool List.
From Verif Require Import Arf Arb Real Gen Seed Factory Ring Module ModuleFactory.
Import ListNotations.
Open Scope Z_scope.

(** A state that a process can get into. *)
Definition mreachable {A : ring} (hr : par A -> Z) (hc : Z -> Z -> Z) (st : mstate A) : Prop := exists ops, st = mrun A hr hc ops minit.
(** [M] is a live module with these generators and this ring. *)
Definition live_module {A : ring} (st : mstate A) (M : Z) (gs : list gen) (p : par A) : Prop :=
  exists ids, mlookup (mods st) M = Some (mkMobj ids p) /\
    Forall2 (fun x g => exists o, lookup (objs (nums st)) x = Some o /\ gen_of x o = g) ids gs.
(** The pointers [ids] are alive and stand for the numbers [gs]. *)
Definition stand_for {A : ring} (st : mstate A) (ids : list Z) (gs : list gen) : Prop :=
  Forall2 (fun x g => exists o, lookup (objs (nums st)) x = Some o /\ gen_of x o = g) ids gs.
