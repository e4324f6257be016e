(** The pseudo random bits of the code ([Real.rand48]): never constant, and
    different for different seeds. *)
From Coq Require Import ZArith QArith Bool List Reals Lia Lra Psatz.
From Flocq Require Import Core.
From Verif Require Import Arf Arb SpecArf ArfProofs Real SpecReal RealProofs RealProofs2 RealProofs3.
Import ListNotations.
Open Scope Z_scope.

Definition state (seed : Z) (n : nat) : Z := rand48_state (rand48_step (seed * 2 ^ 16 + 13070)) n.

Lemma rand48_state_S x n : rand48_state x (S n) = rand48_step (rand48_state x n).
Proof. revert x. induction n as [|n IH]; intros x; [reflexivity|]. exact (IH (rand48_step x)). Qed.

Lemma rand48_state_add x n m : rand48_state x (n + m) = rand48_state (rand48_state x n) m.
Proof. revert x. induction n as [|n IH]; intros x; [reflexivity|]. exact (IH (rand48_step x)). Qed.

Lemma rand48_step_range x : 0 <= rand48_step x < 2 ^ 48.
Proof. apply Z.mod_pos_bound. lia. Qed.

Lemma state_range seed n : 0 <= state seed n < 2 ^ 48.
Proof. unfold state. destruct n as [|n]; [|rewrite rand48_state_S]; apply rand48_step_range. Qed.

(** [2^k] steps. *)
Lemma jump k : exists u w, forall x, 
  rand48_state x (2 ^ k) mod 2 ^ 48 =
  ((1 + 2 ^ (Z.of_nat k + 2) * u) * x + 2 ^ Z.of_nat k * (2 * w + 1)) mod 2 ^ 48.
Proof.
  induction k as [|k (u & w & IH)].
  - exists 6303725979, 5. intros x. change (2 ^ 0)%nat with 1%nat. unfold rand48_state, rand48_step.
    rewrite Z.mod_mod by lia. f_equal. change (2 ^ Z.of_nat 0) with 1. change (2 ^ (Z.of_nat 0 + 2)) with 4. ring.
  - set (K := Z.of_nat k) in *.
    exists (u + 2 ^ (K + 1) * u ^ 2), (w + 2 ^ K * u * (2 * w + 1)). intros x.
    replace (2 ^ S k)%nat with (2 ^ k + 2 ^ k)%nat by (simpl; lia).
    rewrite rand48_state_add, IH. 
    rewrite <- Z.add_mod_idemp_l, <- Z.mul_mod_idemp_r, IH by lia.
    rewrite Z.mul_mod_idemp_r, Z.add_mod_idemp_l by lia. f_equal.
    rewrite Nat2Z.inj_succ. fold K.
    replace (2 ^ (Z.succ K + 2)) with (8 * 2 ^ K) by (replace (Z.succ K + 2) with (K + 3) by lia; rewrite Z.pow_add_r by lia; lia).
    replace (2 ^ (K + 2)) with (4 * 2 ^ K) by (rewrite Z.pow_add_r by lia; lia).
    replace (2 ^ (K + 1)) with (2 * 2 ^ K) by (rewrite Z.pow_add_r by lia; lia).
    replace (2 ^ Z.succ K) with (2 * 2 ^ K) by (rewrite Z.pow_succ_r by lia; lia).
    ring.
Qed.

Lemma testbit_mod_low x n i : 0 <= i < n -> Z.testbit (x mod 2 ^ n) i = Z.testbit x i.
Proof. intros H. apply Z.mod_pow2_bits_low. lia. Qed.

Lemma testbit_div x i : 0 <= i -> Z.testbit x i = Z.odd (x / 2 ^ i).
Proof. intros H. rewrite Z.testbit_odd, Z.shiftr_div_pow2 by exact H. reflexivity. Qed.

Lemma state_jump seed n k : exists u w, state seed (n + 2 ^ k) =
  ((1 + 2 ^ (Z.of_nat k + 2) * u) * state seed n + 2 ^ Z.of_nat k * (2 * w + 1)) mod 2 ^ 48 /\
  forall seed' n', state seed' (n' + 2 ^ k) =
  ((1 + 2 ^ (Z.of_nat k + 2) * u) * state seed' n' + 2 ^ Z.of_nat k * (2 * w + 1)) mod 2 ^ 48.
Proof.
  destruct (jump k) as (u & w & H). exists u, w.
  assert (G : forall seed' n', state seed' (n' + 2 ^ k) =
    ((1 + 2 ^ (Z.of_nat k + 2) * u) * state seed' n' + 2 ^ Z.of_nat k * (2 * w + 1)) mod 2 ^ 48).
  { intros seed' n'. rewrite <- (Z.mod_small (state seed' (n' + 2 ^ k)) (2 ^ 48)) by apply state_range.
    unfold state at 1. rewrite rand48_state_add. apply H. }
  split; [apply G|exact G].
Qed.

(** The top bit flips after [2^47] steps. *)
Lemma rand48_flip seed n : rand48 seed (n + 2 ^ 47) = negb (rand48 seed n).
Proof.
  change (rand48 seed (n + 2 ^ 47)) with (Z.testbit (state seed (n + 2 ^ 47)) 47).
  change (rand48 seed n) with (Z.testbit (state seed n) 47).
  destruct (state_jump seed n 47) as (u & w & -> & _). pose proof (state_range seed n) as R.
  set (X := state seed n) in *. rewrite testbit_mod_low by lia.
  rewrite !testbit_div by lia. change (Z.of_nat 47) with 47.
  replace ((1 + 2 ^ (47 + 2) * u) * X + 2 ^ 47 * (2 * w + 1)) with (X + (4 * (u * X) + 2 * w + 1) * 2 ^ 47)
    by (change (2 ^ (47 + 2)) with (4 * 2 ^ 47); ring).
  rewrite Z.div_add by lia. rewrite Z.odd_add.
  replace (4 * (u * X) + 2 * w + 1) with (1 + 2 * (2 * (u * X) + w)) by ring.
  rewrite Z.odd_add_mul_2. change (Z.odd 1) with true. destruct (Z.odd _); reflexivity.
Qed.

Lemma rand48_nonzero seed : nonzero_stream (rand48 seed).
Proof.
  destruct (rand48 seed 0) eqn:E; [exists 0%nat; exact E|].
  exists (0 + 2 ^ 47)%nat. rewrite rand48_flip, E. reflexivity.
Qed.

(** The bits determine the state. *)
Lemma state_determined s t k : (k <= 47)%nat -> (forall n, rand48 s n = rand48 t n) ->
  forall n, state s n / 2 ^ Z.of_nat (47 - k) = state t n / 2 ^ Z.of_nat (47 - k).
Proof.
  intros Hk Heq. induction k as [|k IH]; intros n.
  - specialize (Heq n). change (rand48 s n) with (Z.testbit (state s n) 47) in Heq.
    change (rand48 t n) with (Z.testbit (state t n) 47) in Heq.
    rewrite !testbit_div in Heq by lia. change (Z.of_nat (47 - 0)) with 47.
    pose proof (state_range s n) as R1. pose proof (state_range t n) as R2.
    assert (B : forall x, 0 <= x < 2 ^ 48 -> 0 <= x / 2 ^ 47 < 2).
    { intros x Hx. split; [apply Z.div_pos; lia|apply Z.div_lt_upper_bound; lia]. }
    apply B in R1. apply B in R2. revert Heq R1 R2.
    generalize (state s n / 2 ^ 47), (state t n / 2 ^ 47). intros a b Hab Ha Hb.
    assert (a = 0 \/ a = 1) as [-> | ->] by lia; assert (b = 0 \/ b = 1) as [-> | ->] by lia; simpl in Hab; congruence.
  - specialize (IH ltac:(lia)). set (j := (47 - S k)%nat).
    replace (47 - k)%nat with (S j) in IH by (unfold j; lia). fold j.
    assert (Hj : Z.of_nat j <= 46) by (unfold j; lia). rewrite Nat2Z.inj_succ in IH.
    set (J := Z.of_nat j) in *. assert (HJ : 0 <= J) by (unfold J; lia).
    assert (P : 0 < 2 ^ J) by (apply Z.pow_pos_nonneg; lia).
    pose proof (IH n) as H1. pose proof (IH (n + 2 ^ j)%nat) as H2.
    destruct (state_jump s n j) as (u & w & _ & G). rewrite !G in H2. fold J in H2.
    set (X := state s n) in *. set (Y := state t n) in *.
    apply (f_equal Z.odd) in H2. rewrite <- !testbit_div in H2 by lia.
    rewrite !testbit_mod_low in H2 by lia. rewrite !testbit_div in H2 by lia.
    rewrite Z.pow_succ_r in H1, H2 by exact HJ.
    replace (2 ^ (J + 2)) with (4 * 2 ^ J) in H2 by (rewrite Z.pow_add_r by lia; lia).
    pose proof (Z.div_mod X (2 * 2 ^ J) ltac:(lia)) as DX. pose proof (Z.mod_pos_bound X (2 * 2 ^ J) ltac:(lia)) as RX.
    pose proof (Z.div_mod Y (2 * 2 ^ J) ltac:(lia)) as DY. pose proof (Z.mod_pos_bound Y (2 * 2 ^ J) ltac:(lia)) as RY.
    rewrite <- H1 in DY. set (q := X / (2 * 2 ^ J)) in *.
    set (r := X mod (2 * 2 ^ J)) in *. set (r' := Y mod (2 * 2 ^ J)) in *.
    assert (D : forall Z0 r0, 0 <= r0 < 2 * 2 ^ J -> Z0 = 2 * 2 ^ J * q + r0 ->
      Z0 / 2 ^ J = 2 * q + (if r0 <? 2 ^ J then 0 else 1) /\
      Z.odd (((1 + 4 * 2 ^ J * u) * Z0 + 2 ^ J * (2 * w + 1)) / (2 * 2 ^ J)) =
      xorb (Z.odd (q + w)) (negb (r0 <? 2 ^ J))).
    { intros Z0 r0 Hr E. split.
      - symmetry. destruct (Z.ltb_spec r0 (2 ^ J)); [apply Z.div_unique with r0|apply Z.div_unique with (r0 - 2 ^ J)]; lia.
      - replace ((1 + 4 * 2 ^ J * u) * Z0 + 2 ^ J * (2 * w + 1)) with
          ((r0 + 2 ^ J) + (q + w + 2 * (u * Z0)) * (2 * 2 ^ J)) by (rewrite E; ring).
        rewrite Z.div_add by lia. destruct (Z.ltb_spec r0 (2 ^ J)).
        + rewrite Z.div_small by lia. rewrite Z.add_0_l, Z.odd_add_mul_2. destruct (Z.odd (q + w)); reflexivity.
        + replace ((r0 + 2 ^ J) / (2 * 2 ^ J)) with 1 by (apply Z.div_unique with (r0 - 2 ^ J); lia).
          rewrite Z.add_assoc, Z.odd_add_mul_2, Z.odd_add. destruct (Z.odd (q + w)); reflexivity. }
    destruct (D X r RX DX) as [X1 X2]. destruct (D Y r' RY DY) as [Y1 Y2].
    rewrite X2, Y2 in H2. rewrite X1, Y1.
    destruct (r <? 2 ^ J), (r' <? 2 ^ J); try reflexivity; destruct (Z.odd (q + w)); discriminate.
Qed.

Lemma rand48_seed_injective s t : 0 <= s < 2 ^ 32 -> 0 <= t < 2 ^ 32 -> (forall n, rand48 s n = rand48 t n) -> s = t.
Proof.
  intros Hs Ht H. pose proof (state_determined s t 47 ltac:(lia) H 0) as E. change (Z.of_nat (47 - 47)) with 0 in E.
  rewrite !Z.div_1_r in E. unfold state, rand48_state, rand48_step in E.
  set (a := 25214903917) in *.
  (* invert the step *)
  assert (Hinv : a * 246154705703781 mod 2 ^ 48 = 1) by (vm_compute; reflexivity).
  assert (Hd : (s - t) * 2 ^ 16 mod 2 ^ 48 = 0).
  { assert (E2 : ((s * 2 ^ 16 + 13070) * a + 11 - ((t * 2 ^ 16 + 13070) * a + 11)) mod 2 ^ 48 = 0).
    { rewrite Zminus_mod, E, Z.sub_diag. reflexivity. }
    replace ((s * 2 ^ 16 + 13070) * a + 11 - ((t * 2 ^ 16 + 13070) * a + 11)) with ((s - t) * 2 ^ 16 * a) in E2 by ring.
    assert (E3 : ((s - t) * 2 ^ 16 * (a * 246154705703781)) mod 2 ^ 48 = 0).
    { rewrite Z.mul_assoc, Z.mul_mod, E2 by lia. reflexivity. }
    rewrite Z.mul_mod, Hinv, Z.mul_1_r, Z.mod_mod in E3 by lia. exact E3. }
  apply Z.mod_divide in Hd; [|lia]. destruct Hd as [c Hc]. 
  assert (s - t = c * 2 ^ 32) by (change (2 ^ 48) with (2 ^ 32 * 2 ^ 16) in Hc; nia). nia.
Qed.

(** Two different streams with the same value are eventually constant. *)
Lemma ambiguous_tail s t y n : stream_value s y -> stream_value t y ->
  prefix s n = prefix t n -> s n = false -> t n = true -> forall m, (n < m)%nat -> s m = true /\ t m = false.
Proof.
  intros Hs Ht Hp Es Et.
  set (Q := 2 * prefix s n + 1).
  assert (F : forall j, prefix s (S n + j) = 2 ^ Z.of_nat j * Q - 1 /\ prefix t (S n + j) = 2 ^ Z.of_nat j * Q).
  { intros j. pose proof (prefix_mono s (S n) j) as M1. pose proof (prefix_mono t (S n) j) as M2.
    assert (P1 : prefix s (S n) = Q - 1) by (cbn [prefix]; rewrite Es; unfold Q; lia).
    assert (P2 : prefix t (S n) = Q) by (cbn [prefix]; rewrite Et, <- Hp; unfold Q; lia).
    rewrite P1 in M1. rewrite P2 in M2. specialize (Hs (S n + j)%nat). specialize (Ht (S n + j)%nat).
    assert (L : prefix t (S n + j) <= prefix s (S n + j) + 1) by (apply le_IZR; rewrite plus_IZR; lra).
    lia. }
  intros m Hm. replace m with (S n + (m - S n))%nat by lia. set (j := (m - S n)%nat).
  destruct (F j) as [A1 A2]. destruct (F (S j)) as [B1 B2].
  rewrite Nat.add_succ_r in B1, B2. cbn [prefix] in B1, B2.
  rewrite Nat2Z.inj_succ, Z.pow_succ_r in B1, B2 by lia.
  change (prefix s (S n + j)) with (prefix s (S n + j)) in A1.
  replace (prefix s (S n + j)) with (2 * prefix s (n + j) + (if s (n + j)%nat then 1 else 0)) in A1 by reflexivity.
  replace (prefix t (S n + j)) with (2 * prefix t (n + j) + (if t (n + j)%nat then 1 else 0)) in A2 by reflexivity.
  split; [destruct (s (S n + j)%nat) eqn:E|destruct (t (S n + j)%nat) eqn:E]; try reflexivity; exfalso;
    replace (S (n + j)) with (S n + j)%nat in B1, B2 by reflexivity; 
    simpl Nat.add in E; try rewrite E in B1; try rewrite E in B2; lia.
Qed.

Lemma first_diff (s t : nat -> bool) n : s n <> t n -> exists k, s k <> t k /\ forall i, (i < k)%nat -> s i = t i.
Proof.
  induction n as [n IH] using lt_wf_ind. intros H.
  destruct (Forall_dec (fun i => s i = t i) (fun i => Bool.bool_dec (s i) (t i)) (seq 0 n)) as [A|A].
  - exists n. split; [exact H|]. intros i Hi. rewrite Forall_forall in A. apply A. apply in_seq. lia.
  - apply neg_Forall_Exists_neg in A; [|intros i; apply Bool.bool_dec]. apply Exists_exists in A as (i & Hi & Hne).
    apply in_seq in Hi. exact (IH i ltac:(lia) Hne).
Qed.

Lemma prefix_ext s t n : (forall i, (i < n)%nat -> s i = t i) -> prefix s n = prefix t n.
Proof. induction n as [|n IH]; intros H; [reflexivity|]. cbn [prefix]. rewrite IH, H by (intros; try apply H; lia). reflexivity. Qed.

Lemma rand48_values_distinct s t v : 0 <= s < 2 ^ 32 -> 0 <= t < 2 ^ 32 ->
  stream_value (rand48 s) v -> stream_value (rand48 t) v -> s = t.
Proof.
  intros Hs Ht Vs Vt. apply rand48_seed_injective; [assumption|assumption|]. intros n.
  destruct (Bool.bool_dec (rand48 s n) (rand48 t n)) as [E|E]; [exact E|exfalso].
  destruct (first_diff _ _ n E) as (k & Hk & Heq). apply prefix_ext in Heq.
  assert (T : forall a b, stream_value (rand48 a) v -> stream_value (rand48 b) v -> prefix (rand48 a) k = prefix (rand48 b) k ->
    rand48 a k = false -> rand48 b k = true -> False).
  { intros a b Va Vb Hp Ea Eb.
    destruct (ambiguous_tail (rand48 a) (rand48 b) v k Va Vb Hp Ea Eb (S k) ltac:(lia)) as [_ B1].
    destruct (ambiguous_tail (rand48 a) (rand48 b) v k Va Vb Hp Ea Eb (S k + 2 ^ 47)%nat) as [_ B2].
    - apply Nat.lt_le_trans with (S k); [lia|apply Nat.le_add_r].
    - rewrite rand48_flip, B1 in B2. discriminate. }
  destruct (rand48 s k) eqn:Es, (rand48 t k) eqn:Et; try congruence.
  - exact (T t s Vt Vs (eq_sym Heq) Et Es).
  - exact (T s t Vs Vt Heq Es Et).
Qed.
