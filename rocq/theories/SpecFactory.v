(** Specification of the factories of real numbers. *)
From Coq Require Import ZArith QArith Qcanon Bool List.
From Verif Require Import Arf Arb Real Gen Seed Factory.
Import ListNotations.
Open Scope Z_scope.

(** A state that a process can get into. *)
Definition reachable (st : state) : Prop := exists ops, st = run ops init.
(** Same kind and same data. *)
Definition same_key (o p : obj) : Prop :=
  match o, p with
  | ORational q, ORational r => q = r
  | OAtom a, OAtom b => atom_eqb a b = true
  | OProd l _, OProd r _ => l = r
  | _, _ => False
  end.
(** All live objects of [st] are still there, unchanged, in [st']. *)
Definition extends (st st' : state) : Prop :=
  (forall x o, In (x, o) (objs st) -> In (x, o) (objs st')) /\ next_id st <= next_id st'.
