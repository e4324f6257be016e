(** The random numbers are rational: the second half of the period of the
    generator is the complement of the first half. *)
From Coq Require Import ZArith Bool List Reals Lia Lra.
From Flocq Require Import Core.
From Verif Require Import Arf Arb SpecArf ArfProofs ArbProofs Real SpecReal RealProofs RealProofs2 RealProofs3 RealProofs4 RealProofs5 RealProofs6 Rand48Proofs.
Open Scope R_scope.

Lemma prefix_negb s n : prefix (fun i => negb (s i)) n = (2 ^ Z.of_nat n - 1 - prefix s n)%Z.
Proof.
  induction n as [|n IH]; [reflexivity|]. cbn [prefix]. rewrite IH, Nat2Z.inj_succ, Z.pow_succ_r by lia.
  destruct (s n); cbn [negb]; lia.
Qed.

Lemma prefix_tail s N n : prefix s (N + n) = (prefix s N * 2 ^ Z.of_nat n + prefix (fun i => s (N + i)%nat) n)%Z.
Proof.
  induction n as [|n IH].
  - rewrite Nat.add_0_r. cbn [prefix]. change (2 ^ Z.of_nat 0)%Z with 1%Z. lia.
  - rewrite Nat.add_succ_r. cbn [prefix]. rewrite IH, Nat2Z.inj_succ, Z.pow_succ_r by lia. ring.
Qed.

Lemma stream_value_negb s y : stream_value s y -> stream_value (fun i => negb (s i)) (1 - y).
Proof.
  intros H n. specialize (H n). rewrite prefix_negb, !minus_IZR.
  rewrite IZR_pow2 by lia. lra.
Qed.

Lemma stream_value_tail s y N : stream_value s y -> stream_value (fun i => s (N + i)%nat) (y * bpow radix2 (Z.of_nat N) - IZR (prefix s N)).
Proof.
  intros H n. specialize (H (N + n)%nat). rewrite prefix_tail, plus_IZR, mult_IZR, IZR_pow2 in H by lia.
  rewrite Nat2Z.inj_add, bpow_plus in H. lra.
Qed.

Lemma stream_value_ext s t y : (forall n, s n = t n) -> stream_value s y -> stream_value t y.
Proof. intros E H n. specialize (H n). rewrite (prefix_ext s t n) in H by (intros; apply E). exact H. Qed.

Lemma stream_value_inj s y z : stream_value s y -> stream_value s z -> y = z.
Proof.
  intros Hy Hz.
  destruct (num_value_unique_exists (fun _ => s) (RAtom (ARandom 0))) as [v [_ Hu]].
  rewrite <- (Hu y Hy). exact (Hu z Hz).
Qed.

Lemma flip_rational s N y : (forall n, s (N + n)%nat = negb (s n)) -> stream_value s y ->
  y * IZR (2 ^ Z.of_nat N + 1) = IZR (prefix s N + 1).
Proof.
  intros Hf Hy. pose proof (stream_value_tail s y N Hy) as H1.
  pose proof (stream_value_negb s y Hy) as H2.
  apply (stream_value_ext _ (fun i => negb (s i))) in H1; [|exact Hf].
  pose proof (stream_value_inj _ _ _ H1 H2) as E. rewrite !plus_IZR, IZR_pow2 by lia. lra.
Qed.

Lemma flip_rational_ex s N y : (forall n, s (n + N)%nat = negb (s n)) -> stream_value s y -> exists p q, (0 < q)%Z /\ y = IZR p / IZR q.
Proof.
  intros Hf Hy. exists (prefix s N + 1)%Z, (2 ^ Z.of_nat N + 1)%Z.
  assert (0 < 2 ^ Z.of_nat N + 1)%Z as Hq by (pose proof (Z.pow_nonneg 2 (Z.of_nat N)); lia).
  split; [exact Hq|]. apply IZR_lt in Hq.
  rewrite <- (flip_rational s N y); [field; lra| |exact Hy].
  intros n. rewrite Nat.add_comm. apply Hf.
Qed.

Lemma rand48_rational seed v : stream_value (rand48 seed) v -> exists p q, (0 < q)%Z /\ v = IZR p / IZR q.
Proof. exact (flip_rational_ex (rand48 seed) (2 ^ 47) v (rand48_flip seed)). Qed.
