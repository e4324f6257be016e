(** One real number used by several threads at once: the steps of
    RealNumberBase::arf, src/real_number.cc:195-219, on the caches of
    src/impl/real_number_base.hpp:50-52, which no lock protects.

    Simplified: every access to a cache is one atomic step.  In the C++ these
    accesses are data races, so that the standard does not say what they do; the
    model is what a machine does whose containers happen to be linearizable.
    The computation of arf_(prec) is a function [approx] of prec: it belongs to the
    object and touches no other cache (rational and random numbers,
    src/rational_real_number.cc:42-46, src/random_real_number.cc:66-92). *)
From Coq Require Import ZArith QArith Bool List.
From Verif Require Import Arf Arb Real Cache.
Import ListNotations.
Open Scope Z_scope.

(** Where a thread is within arf(prec); prec has been clamped, src/real_number.cc:196-197. *)
Inductive place :=
| Look (prec : Z)    (* about to test for an entry, src/real_number.cc:200, 206, 212 *)
| Count (prec : Z)   (* about to test large.size(), src/real_number.cc:213 *)
| Wipe (prec : Z)    (* about to call large.clear(), src/real_number.cc:214 *)
| Store (prec : Z)   (* about to assign the computed value, src/real_number.cc:201, 207, 215 *)
| Fetch (prec : Z).  (* about to read the value to return, src/real_number.cc:202, 208, 218 *)

(** The cache, the threads (None: not in a call), and what the calls have returned so
    far: thread, precision and value, where the value None is the contents of an
    empty std::optional. *)
Record shared := mkShared { contents : cache; at_ : nat -> option place; returned : list (nat * Z * option arf) }.
Definition shared_init : shared := mkShared cache_empty (fun _ => None) [].

Definition move (m : shared) (t : nat) (p : option place) : nat -> option place :=
  fun u => if Nat.eqb u t then p else at_ m u.

(** src/real_number.cc:196-197 *)
Definition clamped (prec : Z) : Z := if prec <? 1 then 0 else prec.
Definition usual (prec : Z) : bool := (prec =? ARF_DOUBLE_PRECISION) || (prec =? ARB_PRECISION_FAST).

(** Assignment to an entry: as in [cache_insert], without the test of the size;
    std::unordered_map::operator[] replaces an existing entry. *)
Definition put (c : cache) (prec : Z) (a : arf) : cache :=
  if prec =? ARF_DOUBLE_PRECISION then mkCache (Some a) (c64 c) (large c)
  else if prec =? ARB_PRECISION_FAST then mkCache (c54 c) (Some a) (large c)
  else mkCache (c54 c) (c64 c) ((prec, a) :: filter (fun e => negb (fst e =? prec)) (large c)).

Section Steps.
  Variable approx : Z -> arf.

  (** One step of thread t. *)
  Definition advance (m : shared) (t : nat) : shared :=
    match at_ m t with
    | None => m
    | Some (Look prec) =>
        let next := match cache_find (contents m) prec with
                    | Some _ => Fetch prec
                    | None => if usual prec then Store prec else Count prec
                    end in
        mkShared (contents m) (move m t (Some next)) (returned m)
    | Some (Count prec) =>
        let next := if (LARGE_PREC_LIMIT <=? length (large (contents m)))%nat then Wipe prec else Store prec in
        mkShared (contents m) (move m t (Some next)) (returned m)
    | Some (Wipe prec) =>
        mkShared (mkCache (c54 (contents m)) (c64 (contents m)) []) (move m t (Some (Store prec))) (returned m)
    | Some (Store prec) =>
        mkShared (put (contents m) prec (approx prec)) (move m t (Some (Fetch prec))) (returned m)
    | Some (Fetch prec) =>
        match cache_find (contents m) prec with
        | Some a => mkShared (contents m) (move m t None) ((t, prec, Some a) :: returned m)
        | None =>
            if usual prec then mkShared (contents m) (move m t None) ((t, prec, None) :: returned m)
            else (* std::unordered_map::operator[] inserts and returns Arf(), which is zero, src/arf.cc:57 *)
              mkShared (put (contents m) prec (arf_of_Z 0)) (move m t None) ((t, prec, Some (arf_of_Z 0)) :: returned m)
        end
    end.

  (** A schedule: a thread that is not in a call calls arf(prec), or a thread takes a step. *)
  Inductive event := Call (t : nat) (prec : Z) | Step (t : nat).
  Definition happen (m : shared) (e : event) : shared :=
    match e with
    | Call t prec => match at_ m t with
                     | None => mkShared (contents m) (move m t (Some (Look (clamped prec)))) (returned m)
                     | Some _ => m
                     end
    | Step t => advance m t
    end.
  Definition play (events : list event) (m : shared) : shared := fold_left happen events m.
End Steps.
