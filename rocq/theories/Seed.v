(** Model of the global counters: src/seed.cc:24-28 (seeds of random numbers) and
    src/real_number_base.cc:26-30 (ids of real numbers), as machines with several
    threads.  A schedule is the list of the threads in the order in which they
    take their atomic steps. *)
From Coq Require Import ZArith Bool List.
Import ListNotations.
Open Scope Z_scope.

(** src/seed.cc:24: static unsigned int nextSeed = 1337. *)
Definition first_seed : Z := 1337.
(** src/real_number_base.cc:26 *)
Definition first_id : Z := 2147483659.

(** Calls of Seed() one after the other, src/seed.cc:26: the list of the values of
    [n] seeds created while the counter has the value [next]; unsigned int has
    32 bits and wraps. *)
Fixpoint seeds (next : Z) (n : nat) : list Z :=
  match n with
  | O => []
  | S k => next :: seeds ((next + 1) mod 2 ^ 32) k
  end.

(** The program's state: the counter, what each thread has read but not yet
    written back, and the values handed out so far (latest first). *)
Record machine := mkMachine { counter : Z; reg : nat -> option Z; handed : list (nat * Z) }.

Definition upd (f : nat -> option Z) (t : nat) (v : option Z) : nat -> option Z :=
  fun u => if Nat.eqb u t then v else f u.

(** One step of thread [t] executing Seed() over and over: [nextSeed++] on a
    plain unsigned int is a read, followed by a write (src/seed.cc:26). *)
Definition seed_step (m : machine) (t : nat) : machine :=
  match reg m t with
  | None => mkMachine (counter m) (upd (reg m) t (Some (counter m))) (handed m)
  | Some v => mkMachine ((v + 1) mod 2 ^ 32) (upd (reg m) t None) ((t, v) :: handed m)
  end.
Definition seed_run (sched : list nat) (m : machine) : machine := fold_left seed_step sched m.
Definition seed_init : machine := mkMachine first_seed (fun _ => None) [].

(** One step of thread [t] executing RealNumberBase() over and over: [next++] on
    a std::atomic<size_t> is a single step (src/real_number_base.cc:28). *)
Definition id_step (m : machine) (t : nat) : machine :=
  mkMachine ((counter m + 1) mod 2 ^ 64) (reg m) ((t, counter m) :: handed m).
Definition id_run (sched : list nat) (m : machine) : machine := fold_left id_step sched m.
Definition id_init : machine := mkMachine first_id (fun _ => None) [].
