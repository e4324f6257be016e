(** Specification of schedules. *)
From Coq Require Import List.
Import ListNotations.

(** Seeds: a schedule in which no thread is preempted between its read and its write. *)
Fixpoint unpreempted (calls : list nat) : list nat :=
  match calls with [] => [] | t :: calls' => t :: t :: unpreempted calls' end.
