(** Proofs about the digits of real numbers. *)
From Coq Require Import ZArith QArith Bool List Reals Lia Lra Psatz Qreals.
From Flocq Require Import Core.
From Verif Require Import Arf Arb SpecArf ArfProofs ArbProofs Real SpecReal.
Import ListNotations.
Open Scope R_scope.

Lemma prefix_nonneg s n : (0 <= prefix s n)%Z.
Proof. induction n as [|n IH]; cbn [prefix]; [lia|]. destruct (s n); lia. Qed.

Lemma prefix_ext_zero s n : (forall i, (i < n)%nat -> s i = false) -> prefix s n = 0%Z.
Proof.
  induction n as [|n IH]; cbn [prefix]; intros H; [reflexivity|].
  rewrite IH by (intros; apply H; lia). rewrite (H n) by lia. reflexivity.
Qed.

(** Position of the first 1. *)
Lemma first_one s : nonzero_stream s -> exists z, s z = true /\ forall i, (i < z)%nat -> s i = false.
Proof.
  intros [i Hi]. induction i as [i IH] using lt_wf_ind.
  destruct (existsb s (seq 0 i)) eqn:E.
  - apply existsb_exists in E as (j & Hj & Sj). apply in_seq in Hj. apply (IH j); [lia|exact Sj].
  - exists i. split; [exact Hi|]. intros j Hj. destruct (s j) eqn:Sj; [|reflexivity].
    assert (existsb s (seq 0 i) = true); [|congruence]. apply existsb_exists. exists j. split; [apply in_seq; lia|exact Sj].
Qed.

(** After the first 1, the loop collects the prefix of the stream. *)
Lemma random_loop_digits s z necessary : forall fuel i digits,
  (z < i)%nat -> (forall j, (j < z)%nat -> s j = false) -> s z = true ->
  (digits = Z.of_nat i - Z.of_nat z)%Z -> (digits <= necessary)%Z ->
  (Z.to_nat (necessary - digits) <= fuel)%nat ->
  random_loop fuel s i digits (prefix s i) (- Z.of_nat i) necessary =
  Some (mkArf (prefix s (z + Z.to_nat necessary)) (- (Z.of_nat z + necessary))).
Proof.
  induction fuel as [|fuel IH]; intros i digits Hi H0 H1 Hd Hn Hf.
  - assert (digits = necessary) by lia. simpl. rewrite (proj2 (Z.leb_le _ _)) by lia.
    f_equal. f_equal; [f_equal; lia|lia].
  - cbn [random_loop]. destruct (Z.leb_spec necessary digits).
    + f_equal. f_equal; [f_equal; lia|lia].
    + rewrite (proj2 (Z.eqb_neq digits 0)) by lia. cbn [andb].
      change (2 * prefix s i + b2z (s i))%Z with (prefix s (S i)).
      replace (- Z.of_nat i - 1)%Z with (- Z.of_nat (S i))%Z by lia.
      apply IH; try assumption; lia.
Qed.

Lemma random_loop_zeros s z necessary : (0 < necessary)%Z -> forall fuel i,
  (i <= z)%nat -> (forall j, (j < z)%nat -> s j = false) -> s z = true ->
  (z - i + Z.to_nat necessary <= fuel)%nat ->
  random_loop fuel s i 0 0 (- Z.of_nat i) necessary =
  Some (mkArf (prefix s (z + Z.to_nat necessary)) (- (Z.of_nat z + necessary))).
Proof.
  intros Hn. induction fuel as [|fuel IH]; intros i Hi H0 H1 Hf; [lia|].
  cbn [random_loop]. destruct (Z.leb_spec necessary 0); [lia|].
  rewrite Z.eqb_refl. cbn [andb].
  destruct (Nat.eq_dec i z) as [->|Hne].
  - rewrite H1. cbn [negb]. rewrite Z.mul_0_r, Z.add_0_l.
    replace (b2z true) with (prefix s (S z)) by (simpl; rewrite (prefix_ext_zero s z H0), H1; reflexivity).
    replace (- Z.of_nat z - 1)%Z with (- Z.of_nat (S z))%Z by lia.
    apply (random_loop_digits s z); try assumption; lia.
  - rewrite (H0 i) by lia. cbn [negb].
    replace (- Z.of_nat i - 1)%Z with (- Z.of_nat (S i))%Z by lia.
    apply IH; try assumption; lia.
Qed.

Definition clamp (prec : Z) : Z := (if prec <? 1 then 0 else prec)%Z.
Lemma clamp_nonneg p : (0 <= clamp p)%Z.
Proof. unfold clamp. destruct (Z.ltb_spec p 1); lia. Qed.
Lemma clamp_pos p : (1 <= p)%Z -> clamp p = p.
Proof. unfold clamp. destruct (Z.ltb_spec p 1); lia. Qed.
Lemma clamp_nn p : (0 <= p)%Z -> clamp p = p.
Proof. unfold clamp. destruct (Z.ltb_spec p 1); lia. Qed.
Lemma clamp_idem p : clamp (clamp p) = clamp p.
Proof. apply clamp_nn, clamp_nonneg. Qed.

(** Closed form of random approximations. *)
Definition random_closed (s : nat -> bool) (z : nat) (prec : Z) : arf :=
  mkArf (prefix s (z + Z.to_nat (clamp prec + 1))) (- (Z.of_nat z + (clamp prec + 1))).

Lemma arf_random_eq rng seed z prec fuel :
  rng seed z = true -> (forall i, (i < z)%nat -> rng seed i = false) ->
  (z + Z.to_nat (clamp prec + 1) <= fuel)%nat ->
  arf_random rng fuel seed prec = Some (random_closed (rng seed) z prec).
Proof.
  intros H1 H0 Hf. unfold arf_random. fold (clamp prec).
  pose proof (clamp_nonneg prec).
  apply (random_loop_zeros (rng seed) z); try assumption; lia.
Qed.

(** The loop is monotone in fuel. *)
Lemma random_loop_fuel s necessary : forall fuel fuel' i digits mant expo a, (fuel <= fuel')%nat ->
  random_loop fuel s i digits mant expo necessary = Some a ->
  random_loop fuel' s i digits mant expo necessary = Some a.
Proof.
  induction fuel as [|fuel IH]; intros fuel' i digits mant expo a Hf H.
  - cbn [random_loop] in H. destruct fuel'; cbn [random_loop]; destruct (necessary <=? digits)%Z; congruence.
  - destruct fuel' as [|fuel']; [lia|]. cbn [random_loop] in *.
    destruct (necessary <=? digits)%Z; [exact H|].
    destruct ((digits =? 0)%Z && negb (s i)); apply (IH fuel'); try lia; exact H.
Qed.

Lemma arf_random_det rng seed z prec fuel a :
  rng seed z = true -> (forall i, (i < z)%nat -> rng seed i = false) ->
  arf_random rng fuel seed prec = Some a -> a = random_closed (rng seed) z prec.
Proof.
  intros H1 H0 H.
  pose proof (arf_random_eq rng seed z prec (fuel + (z + Z.to_nat (clamp prec + 1))) H1 H0 ltac:(lia)) as E.
  unfold arf_random in H, E. eapply random_loop_fuel in H; [|apply Nat.le_add_r].
  rewrite H in E. congruence.
Qed.

Lemma prefix_range s z k : s z = true -> (forall i, (i < z)%nat -> s i = false) ->
  (2 ^ Z.of_nat k <= prefix s (z + S k) < 2 ^ (Z.of_nat k + 1))%Z.
Proof.
  intros H1 H0. induction k as [|k IH].
  - replace (z + 1)%nat with (S z) by lia. cbn [prefix]. rewrite (prefix_ext_zero s z H0), H1. simpl. lia.
  - replace (z + S (S k))%nat with (S (z + S k)) by lia. cbn [prefix].
    rewrite Nat2Z.inj_succ. unfold Z.succ. rewrite !Z.pow_add_r in * by lia. change (2 ^ 1)%Z with 2%Z in *.
    destruct (s (z + S k)%nat); lia.
Qed.

Section RandomClosed.
  Variables (s : nat -> bool) (z : nat) (prec : Z).
  Hypotheses (H1 : s z = true) (H0 : forall i, (i < z)%nat -> s i = false).
  Let N := (Z.of_nat z + (clamp prec + 1))%Z.
  Let a := random_closed s z prec.

  Lemma rc_N : Z.of_nat (z + Z.to_nat (clamp prec + 1)) = N.
  Proof. unfold N. pose proof (clamp_nonneg prec). lia. Qed.

  Lemma rc_range : (2 ^ clamp prec <= am a < 2 ^ (clamp prec + 1))%Z.
  Proof.
    pose proof (clamp_nonneg prec). unfold a, random_closed; cbn [am].
    replace (Z.to_nat (clamp prec + 1)) with (S (Z.to_nat (clamp prec))) by lia.
    pose proof (prefix_range s z (Z.to_nat (clamp prec)) H1 H0).
    rewrite !Z2Nat.id in * by lia. lia.
  Qed.

  Lemma rc_pos : 0 < arf2R a.
  Proof. apply arf2R_pos. pose proof rc_range. pose proof (pow2_pos (clamp prec) (clamp_nonneg prec)). lia. Qed.

  Lemma rc_mag : mag radix2 (arf2R a) = (- Z.of_nat z)%Z :> Z.
  Proof.
    apply mag_unique_pos. pose proof rc_range as [R1 R2]. pose proof (clamp_nonneg prec).
    unfold arf2R. fold a. change (ae a) with (- N)%Z.
    replace (- Z.of_nat z - 1)%Z with (clamp prec + - N)%Z by (unfold N; lia).
    replace (- Z.of_nat z)%Z with (clamp prec + 1 + - N)%Z by (unfold N; lia).
    rewrite !bpow_plus with (e2 := (- N)%Z). pose proof (bpow2_pos (- N)).
    rewrite <- (IZR_pow2 (clamp prec)), <- (IZR_pow2 (clamp prec + 1)) by lia. split.
    - apply Rmult_le_compat_r; [lra|]. apply IZR_le; exact R1.
    - apply Rmult_lt_compat_r; [lra|]. apply IZR_lt; exact R2.
  Qed.

  Lemma rc_error y : stream_value s y -> arf2R a <= y <= arf2R a + bpow radix2 (- N).
  Proof.
    intros Hy. specialize (Hy (z + Z.to_nat (clamp prec + 1))%nat). rewrite rc_N in Hy.
    unfold arf2R, a, random_closed; cbn [am ae]. fold N.
    pose proof (bpow2_pos N). pose proof (bpow2_pos (- N)).
    assert (E : bpow radix2 N * bpow radix2 (- N) = 1) by (rewrite <- bpow_plus; replace (N + - N)%Z with 0%Z by lia; reflexivity).
    destruct Hy as [L U].
    apply Rmult_le_compat_r with (r := bpow radix2 (- N)) in L; [|lra].
    apply Rmult_le_compat_r with (r := bpow radix2 (- N)) in U; [|lra].
    rewrite Rmult_assoc, E, Rmult_1_r in L, U. lra.
  Qed.

  Lemma rc_accurate y : stream_value s y -> accurate (clamp prec) a y.
  Proof.
    intros Hy. unfold accurate. rewrite rc_mag. replace (- Z.of_nat z - 1 - clamp prec)%Z with (- N)%Z by (unfold N; lia).
    pose proof (rc_error y Hy). apply Rabs_le. pose proof (bpow2_pos (- N)). lra.
  Qed.
End RandomClosed.

Lemma stream_value_range s y : stream_value s y -> 0 <= y <= 1.
Proof. intros H. specialize (H 0%nat). simpl in H. lra. Qed.

Lemma stream_value_pos s y : nonzero_stream s -> stream_value s y -> 0 < y.
Proof.
  intros Hs Hy. destruct (first_one s Hs) as (z & H1 & H0).
  pose proof (rc_pos s z 1 H1 H0). pose proof (rc_error s z 1 y Hy). lra.
Qed.

(** Rational approximations. *)
Lemma Q2R_div q : Q2R q = IZR (Qnum q) / IZR (Zpos (Qden q)).
Proof. unfold Q2R. reflexivity. Qed.

Lemma arf_rational_spec q prec : (1 <= prec)%Z ->
  arf2R (arf_rational q prec) = round radix2 (FLX_exp prec) ZnearestE (Q2R q).
Proof.
  intros Hp. unfold arf_rational. destruct (Z.ltb_spec prec 1); [lia|].
  rewrite round_q_spec by lia. rewrite Q2R_div. simpl bpow. rewrite Rmult_1_r. reflexivity.
Qed.

(** Rounding to nearest with [p] bits has an error of half a unit of the [p]-th
    bit; relative to the result. *)
Lemma round_near_accurate p x : (1 <= p)%Z ->
  Rabs (x - round radix2 (FLX_exp p) ZnearestE x) <=
  (if Req_EM_T x 0 then 0 else bpow radix2 (mag radix2 (round radix2 (FLX_exp p) ZnearestE x) - 1 - p)).
Proof.
  intros Hp. assert (PH : Prec_gt_0 p) by (unfold Prec_gt_0; lia).
  destruct (Req_EM_T x 0) as [->|Hx].
  - rewrite round_0 by auto with typeclass_instances. rewrite Rminus_eq_0, Rabs_R0. lra.
  - rewrite Rabs_minus_sym.
    eapply Rle_trans; [apply error_le_half_ulp; auto with typeclass_instances|].
    rewrite ulp_neq_0 by exact Hx. unfold cexp, FLX_exp.
    change (/ 2) with (bpow radix2 (-1)). rewrite <- bpow_plus. apply bpow_le.
    fold (FLX_exp p).     pose proof (mag_round_ge radix2 (FLX_exp p) ZnearestE x (round_FLX_neq0 p ZnearestE x ltac:(lia) Hx)). lia.
Qed.

Lemma rational_accurate q prec : (1 <= prec)%Z -> ~ (q == 0)%Q -> accurate prec (arf_rational q prec) (Q2R q).
Proof.
  intros Hp Hq. unfold accurate. rewrite arf_rational_spec by exact Hp.
  pose proof (round_near_accurate prec (Q2R q) Hp) as H.
  destruct (Req_EM_T (Q2R q) 0) as [E|_]; [|exact H].
  exfalso. apply Hq. apply eqR_Qeq. rewrite E. unfold Q2R; simpl. lra.
Qed.
