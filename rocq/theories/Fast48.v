(** A faster way to compute the digits of [rand48], used to evaluate examples: the
    states are computed one after the other, not each of them from the seed. *)
From Coq Require Import ZArith Bool List FunctionalExtensionality Lia.
From Verif Require Import Arf Arb Real.
Import ListNotations.
Open Scope Z_scope.

Definition fast_step (x : Z) : Z := Z.land (x * 25214903917 + 11) 281474976710655.
Lemma fast_step_eq x : fast_step x = rand48_step x.
Proof. unfold fast_step, rand48_step. change 281474976710655 with (Z.ones 48). apply Z.land_ones. discriminate. Qed.
Fixpoint fast_stream (x : Z) (k : nat) : list bool := match k with O => [] | S k => Z.testbit x 47 :: fast_stream (fast_step x) k end.
Definition fast48 (seed : Z) : nat -> bool :=
  let l := fast_stream (fast_step (seed * 65536 + 13070)) 300 in
  fun n => match nth_error l n with Some b => b | None => rand48 seed n end.
Lemma fast_stream_nth k : forall x n, match nth_error (fast_stream x k) n with Some b => b = Z.testbit (rand48_state x n) 47 | None => True end.
Proof.
  induction k as [|k IH]; intros x n; [destruct n; exact Logic.I|]. destruct n as [|n]; [reflexivity|]. cbn [fast_stream nth_error rand48_state].
  specialize (IH (fast_step x) n). rewrite fast_step_eq in *. exact IH.
Qed.
Lemma rand48_fast : rand48 = fast48.
Proof.
  extensionality seed. extensionality n. unfold fast48.
  pose proof (fast_stream_nth 300 (fast_step (seed * 65536 + 13070)) n) as H. destruct (nth_error _ n) as [b|]; [|reflexivity].
  rewrite H, fast_step_eq. reflexivity.
Qed.
Ltac c48 := rewrite ?rand48_fast; vm_compute; reflexivity.
