(** Properties C16 and C18 for the objects that represent modules. *)
From Coq Require Import ZArith QArith Qcanon Bool List Reals Lia Permutation.
From Verif Require Import Arf Arb SpecArf Real Gen SpecGen GenProofs Seed Factory SpecFactory FactoryProofs Ring SpecRing RingProofs Module SpecModule ModuleProofs ModuleFactory SpecModuleFactory ModuleFactoryProofs.
Import ListNotations.
Open Scope Z_scope.

(** [hr], [hc]: any functions for hashing rings and combining hashes. *)
(** Module::make on objects does what [make] does on numbers: it throws for the same generators, and otherwise
    returns a live module with the sorted generators and that ring. *)
Theorem C18_objects : forall (A : ring) (S : semantics A), lawful A S -> forall hr hc (st : mstate A) ids gs p,
  mreachable hr hc st -> stand_for st ids gs ->
  match make gs p with
  | Ok N => exists st' M, make_obj A hr hc st ids p = Ok (st', M) /\ live_module st' M (basis N) p
  | Err e => make_obj A hr hc st ids p = Err e
  end.
Proof. intros A S L hr hc st ids gs p. exact (make_value A (L_par_eqb A S L) hr hc st ids gs p). Qed.
(** Two live modules with the same generators and the same ring are the same object. *)
Theorem C16_module_unique : forall (A : ring) (S : semantics A), lawful A S -> forall hr hc (st : mstate A) M N gs hs p,
  mreachable hr hc st -> live_module st M gs p -> live_module st N hs p -> Permutation gs hs -> M = N.
Proof. intros A S L hr hc st M N gs hs p. exact (module_unique A (L_par_eqb A S L) hr hc st M N gs hs p). Qed.
(** While a module is alive, asking for its generators (in any order) and ring returns that object, whatever happened
    in between. *)
Theorem C16_module_interned : forall (A : ring) (S : semantics A), lawful A S -> forall hr hc (st : mstate A) ids gs p st1 M ops jds hs,
  mreachable hr hc st -> stand_for st ids gs -> make_obj A hr hc st ids p = Ok (st1, M) ->
  mlookup (mods (mrun A hr hc ops st1)) M <> None -> stand_for (mrun A hr hc ops st1) jds hs -> Permutation gs hs ->
  make_obj A hr hc (mrun A hr hc ops st1) jds p = Ok (mrun A hr hc ops st1, M).
Proof. intros A S L hr hc st ids gs p st1 M ops jds hs. exact (module_interned A (L_par_eqb A S L) hr hc st ids gs p st1 M ops jds hs). Qed.
(** Modules do not change. *)
Theorem C16_module_immutable : forall (A : ring) (S : semantics A), lawful A S -> forall hr hc (st : mstate A) ops M gs p hs q,
  mreachable hr hc st -> live_module st M gs p -> live_module (mrun A hr hc ops st) M hs q -> gs = hs /\ p = q.
Proof. intros A S L hr hc st ops M gs p hs q. exact (module_immutable A (L_par_eqb A S L) hr hc st ops M gs p hs q). Qed.
(** A live module keeps its generators alive; they are sorted. *)
Theorem C16_module_keeps_generators : forall (A : ring) (S : semantics A), lawful A S -> forall hr hc (st : mstate A) M o,
  mreachable hr hc st -> mlookup (mods st) M = Some o -> exists gs, live_module st M gs (gring o) /\ Forall gen_wf gs /\ ascending gs.
Proof. intros A S L hr hc st M o. exact (module_keeps_alive A (L_par_eqb A S L) hr hc st M o). Qed.

(** Three generators; the module is made twice, in different orders; then a generator cannot disappear. *)
Definition hc0 (x y : Z) : Z := (31 * x + y) mod 2 ^ 64.
Definition three : mstate int_ring := mrun int_ring (fun _ => 0) hc0 [Number (GetAtom (ARandom 7)); Number (GetRational 1); Number (Mul first_id first_id); Make (A := int_ring) [first_id + 2; first_id; first_id + 1] tt] minit.
Example C16_module_case : mreachable (A := int_ring) (fun _ => 0) hc0 three /\
  make_obj int_ring (fun _ => 0) hc0 three [first_id; first_id + 1; first_id + 2] tt = Ok (three, 0) /\
  live_module three 0 [GRat 1; GAtom first_id; GProd [(first_id, 2%nat)]] tt /\
  mstep int_ring (fun _ => 0) hc0 three (Number (Collect (first_id + 1))) = three /\
  make_obj int_ring (fun _ => 0) hc0 three [first_id; first_id] tt = Err LogicError.
Proof.
  split; [eexists; reflexivity|]. split; [vm_compute; reflexivity|]. split; [|split; vm_compute; reflexivity].
  exists [first_id + 1; first_id; first_id + 2]. split; [vm_compute; reflexivity|]. repeat constructor; eexists; (split; [vm_compute; reflexivity|reflexivity]).
Qed.
