(** Accuracy of atoms and products; existence of values; termination of [arf]. *)
From Coq Require Import ZArith QArith Bool List Reals Lia Lra Psatz Qreals.
From Flocq Require Import Core.
From Verif Require Import Arf Arb SpecArf ArfProofs ArbProofs Real SpecReal RealProofs RealProofs2.
Import ListNotations.
Open Scope R_scope.

Section Atoms.
  Variable rng : Z -> nat -> bool.

  Lemma atom_accurate a v fuel prec b : atom_ok rng a -> atom_value rng a v ->
    arf_atom rng fuel a prec = Some b -> accurate (clamp prec) b v /\ arf2R b <> 0.
  Proof.
    destruct a as [seed|initial e seed]; intros Hok Hv H.
    - destruct (first_one _ Hok) as (z & H1 & H0). simpl in H.
      apply (arf_random_det rng seed z) in H; [|assumption|assumption]. subst b.
      split; [apply rc_accurate; assumption|].
      pose proof (rc_pos (rng seed) z prec H1 H0). lra.
    - destruct Hv as (y & Hy & ->). simpl in H.
      eapply constr_accurate; eassumption.
  Qed.

  Lemma atom_returns a prec : atom_ok rng a ->
    exists fuel0 b, forall fuel, (fuel0 <= fuel)%nat -> arf_atom rng fuel a prec = Some b.
  Proof.
    destruct a as [seed|initial e seed]; intros Hok.
    - destruct (first_one _ Hok) as (z & H1 & H0).
      exists (z + Z.to_nat (clamp prec + 1))%nat. eexists. intros fuel Hf. simpl.
      apply (arf_random_eq rng seed z); assumption.
    - apply constr_returns. exact Hok.
  Qed.

  (** Atoms are not zero. *)
  Lemma stream_value_unique s y1 y2 : stream_value s y1 -> stream_value s y2 -> y1 = y2.
  Proof.
    intros Hy1 Hy2. destruct (Req_dec y1 y2) as [E|E]; [exact E|exfalso].
    assert (Hd : 0 < Rabs (y1 - y2)) by (apply Rabs_pos_lt; lra).
    set (n := Z.to_nat (Z.max 0 (2 - mag radix2 (y1 - y2)))).
    specialize (Hy1 n). specialize (Hy2 n).
    assert (Hle : Rabs (y1 - y2) * bpow radix2 (Z.of_nat n) <= 1).
    { pose proof (bpow2_pos (Z.of_nat n)).
      rewrite <- (Rabs_pos_eq (bpow radix2 (Z.of_nat n))) by lra. rewrite <- Rabs_mult.
      apply Rabs_le. lra. }
    pose proof (bpow_mag_le radix2 (y1 - y2) ltac:(lra)) as Hm.
    assert (Hn : bpow radix2 1 <= bpow radix2 (mag radix2 (y1 - y2) - 1) * bpow radix2 (Z.of_nat n)).
    { rewrite <- bpow_plus. apply bpow_le. lia. }
    change (bpow radix2 1) with 2 in Hn.
    pose proof (bpow2_pos (Z.of_nat n)).
    apply Rmult_le_compat_r with (r := bpow radix2 (Z.of_nat n)) in Hm; [|lra]. lra.
  Qed.

  Lemma atom_value_unique a v w : atom_value rng a v -> atom_value rng a w -> v = w.
  Proof.
    destruct a as [seed|initial e seed]; simpl.
    - apply stream_value_unique.
    - intros (y1 & H1 & ->) (y2 & H2 & ->). rewrite (stream_value_unique _ _ _ H1 H2). reflexivity.
  Qed.
End Atoms.

(** Every digit stream has a value. *)
Lemma prefix_step s n : (2 * prefix s n <= prefix s (S n) <= 2 * prefix s n + 1)%Z.
Proof. cbn [prefix]. destruct (s n); lia. Qed.

Lemma prefix_mono s n k : (2 ^ Z.of_nat k * prefix s n <= prefix s (n + k) <= 2 ^ Z.of_nat k * prefix s n + 2 ^ Z.of_nat k - 1)%Z.
Proof.
  induction k as [|k IH].
  - rewrite Nat.add_0_r. simpl (2 ^ Z.of_nat 0)%Z. lia.
  - rewrite Nat.add_succ_r. pose proof (prefix_step s (n + k)).
    rewrite Nat2Z.inj_succ, Z.pow_succ_r by lia. lia.
Qed.

Lemma bpow_nat_pos n : 0 < bpow radix2 (Z.of_nat n).
Proof. apply bpow2_pos. Qed.

Lemma stream_value_exists s : exists y, stream_value s y.
Proof.
  set (A := fun r => exists n, r = IZR (prefix s n) * bpow radix2 (- Z.of_nat n)).
  assert (Hbound : forall n k, IZR (prefix s k) * bpow radix2 (- Z.of_nat k) <= (IZR (prefix s n) + 1) * bpow radix2 (- Z.of_nat n)).
  { intros n k.
    assert (Hmul : forall j m, (j <= m)%nat -> IZR (2 ^ Z.of_nat (m - j)) * bpow radix2 (- Z.of_nat m) = bpow radix2 (- Z.of_nat j)).
    { intros j m Hjm. rewrite IZR_pow2 by lia. rewrite <- bpow_plus. f_equal. lia. }
    destruct (Nat.le_gt_cases n k) as [H|H].
    - pose proof (prefix_mono s n (k - n)) as [_ U]. replace (n + (k - n))%nat with k in U by lia.
      rewrite <- (Hmul n k H), <- Rmult_assoc. apply Rmult_le_compat_r; [left; apply bpow2_pos|].
      rewrite <- (plus_IZR _ 1), <- mult_IZR. apply IZR_le. lia.
    - pose proof (prefix_mono s k (n - k)) as [L _]. replace (k + (n - k))%nat with n in L by lia.
      rewrite <- (Hmul k n ltac:(lia)), <- Rmult_assoc. apply Rmult_le_compat_r; [left; apply bpow2_pos|].
      rewrite <- (plus_IZR _ 1), <- mult_IZR. apply IZR_le. lia. }
  destruct (completeness A) as [y [Hub Hlub]].
  - exists 1. intros r [k ->]. specialize (Hbound 0%nat k). simpl in Hbound. lra.
  - exists (IZR (prefix s 0) * bpow radix2 (- Z.of_nat 0)), 0%nat. reflexivity.
  - exists y. intros n. pose proof (bpow_nat_pos n) as Hp.
    assert (Hinv : bpow radix2 (- Z.of_nat n) * bpow radix2 (Z.of_nat n) = 1).
    { rewrite <- bpow_plus. replace (- Z.of_nat n + Z.of_nat n)%Z with 0%Z by lia. reflexivity. }
    split.
    + assert (H : IZR (prefix s n) * bpow radix2 (- Z.of_nat n) <= y) by (apply Hub; exists n; reflexivity).
      apply Rmult_le_compat_r with (r := bpow radix2 (Z.of_nat n)) in H; [|lra].
      rewrite Rmult_assoc, Hinv in H. lra.
    + assert (H : y <= (IZR (prefix s n) + 1) * bpow radix2 (- Z.of_nat n)).
      { apply Hlub. intros r [k ->]. apply Hbound. }
      apply Rmult_le_compat_r with (r := bpow radix2 (Z.of_nat n)) in H; [|lra].
      rewrite Rmult_assoc, Hinv in H. lra.
Qed.

Lemma atom_value_exists rng a : exists v, atom_value rng a v.
Proof.
  destruct a as [seed|initial e seed]; simpl.
  - apply stream_value_exists.
  - destruct (stream_value_exists (rng seed)) as [y Hy]. eexists; exists y; eauto.
Qed.

Lemma prod_value_exists rng ms : exists v, prod_value rng ms v.
Proof.
  induction ms as [|[a k] ms [z IH]]; simpl; [exists 1; reflexivity|].
  destruct (atom_value_exists rng a) as [y Hy]. exists (y ^ k * z), y, z. auto.
Qed.

Lemma num_value_exists rng x : exists v, num_value rng x v.
Proof.
  destruct x as [q|a|ms]; simpl; [eexists; reflexivity|apply atom_value_exists|apply prod_value_exists].
Qed.

Lemma prod_value_unique rng ms : forall v w, prod_value rng ms v -> prod_value rng ms w -> v = w.
Proof.
  induction ms as [|[a k] ms IH]; simpl; intros v w Hv Hw; [congruence|].
  destruct Hv as (y1 & z1 & A1 & P1 & ->). destruct Hw as (y2 & z2 & A2 & P2 & ->).
  rewrite (atom_value_unique rng a _ _ A1 A2), (IH _ _ P1 P2). reflexivity.
Qed.

Lemma num_value_unique rng x v w : num_value rng x v -> num_value rng x w -> v = w.
Proof.
  destruct x as [q|a|ms]; simpl; [congruence|apply atom_value_unique|apply prod_value_unique].
Qed.

(** Products. *)
Lemma accurate_rel p b v : arf2R b <> 0 -> accurate p b v ->
  exists d, Rabs d <= bpow radix2 (- p) /\ v = arf2R b * (1 + d).
Proof.
  intros Hb Ha. exists ((v - arf2R b) / arf2R b). split; [|field; exact Hb].
  unfold Rdiv. rewrite Rabs_mult, Rabs_inv.
  assert (Hp : 0 < Rabs (arf2R b)) by (apply Rabs_pos_lt; exact Hb).
  apply Rmult_le_reg_r with (Rabs (arf2R b)); [exact Hp|].
  rewrite Rmult_assoc, Rinv_l, Rmult_1_r by lra.
  eapply Rle_trans; [exact Ha|].
  replace (mag radix2 (arf2R b) - 1 - p)%Z with (- p + (mag radix2 (arf2R b) - 1))%Z by lia.
  rewrite bpow_plus. apply Rmult_le_compat_l; [left; apply bpow2_pos|]. apply bpow_mag_le. exact Hb.
Qed.

Lemma one_plus_bound a A b B : Rabs (a - 1) <= A - 1 -> Rabs (b - 1) <= B - 1 -> Rabs (a * b - 1) <= A * B - 1.
Proof.
  intros Ha Hb. replace (a * b - 1) with ((a - 1) * (b - 1) + ((a - 1) + (b - 1))) by ring.
  eapply Rle_trans; [apply Rabs_triang|]. rewrite Rabs_mult.
  pose proof (Rabs_triang (a - 1) (b - 1)). pose proof (Rabs_pos (a - 1)). pose proof (Rabs_pos (b - 1)).
  nra.
Qed.

Section Products.
  Variable rng : Z -> nat -> bool.

  (** Value of a list of factors. *)
  Inductive factors_value : list atom -> R -> Prop :=
  | fv_nil : factors_value [] 1
  | fv_cons a fs v w : atom_value rng a v -> factors_value fs w -> factors_value (a :: fs) (v * w).

  Lemma factors_value_app l1 l2 v1 v2 : factors_value l1 v1 -> factors_value l2 v2 -> factors_value (l1 ++ l2) (v1 * v2).
  Proof.
    induction 1 as [|a fs v w Ha Hf IH]; simpl; intros H2; [rewrite Rmult_1_l; exact H2|].
    rewrite Rmult_assoc. constructor; auto.
  Qed.
  Lemma factors_value_repeat a v k : atom_value rng a v -> factors_value (repeat a k) (v ^ k).
  Proof. intros H. induction k as [|k IH]; simpl; constructor; auto. Qed.

  Lemma prod_factors_value ms v : prod_value rng ms v -> factors_value (factors ms) v.
  Proof.
    revert v. induction ms as [|[a k] ms IH]; simpl; intros v Hv.
    - subst. constructor.
    - destruct Hv as (y & z & Ha & Hz & ->). unfold factors. simpl.
      apply factors_value_app; [apply factors_value_repeat; exact Ha|apply IH; exact Hz].
  Qed.

  Lemma rndN_rel p x : (0 < p)%Z -> x <> 0 -> exists d, Rabs d <= bpow radix2 (- p) /\ x = rndN p x * (1 + d).
  Proof.
    intros Hp Hx. pose proof (rndN_neq0 p x Hp Hx) as Hr. exists ((x - rndN p x) / rndN p x). split; [|field; exact Hr].
    unfold Rdiv. rewrite Rabs_mult, Rabs_inv.
    assert (HR : 0 < Rabs (rndN p x)) by (apply Rabs_pos_lt; exact Hr).
    apply Rmult_le_reg_r with (Rabs (rndN p x)); [exact HR|].
    rewrite Rmult_assoc, Rinv_l, Rmult_1_r by lra.
    eapply Rle_trans; [apply rndN_half_ulp; assumption|].
    pose proof (rndN_mag p x Hp Hx).
    apply Rle_trans with (bpow radix2 (mag radix2 (rndN p x) - 1 - p)); [apply bpow_le; lia|].
    replace (mag radix2 (rndN p x) - 1 - p)%Z with (- p + (mag radix2 (rndN p x) - 1))%Z by lia.
    rewrite bpow_plus. apply Rmult_le_compat_l; [left; apply bpow2_pos|]. apply bpow_mag_le. exact Hr.
  Qed.

  Lemma mul_factors_bound fuel wp : (1 <= wp)%Z -> forall fs v, factors_value fs v ->
    (forall a, In a fs -> atom_ok rng a) ->
    forall ret r V c k, c = 1 + bpow radix2 (- wp) -> arf2R ret <> 0 -> V = arf2R ret * k ->
    forall n, Rabs (k - 1) <= c ^ n - 1 ->
    mul_factors rng fuel wp fs ret = Some r ->
    arf2R r <> 0 /\ exists k', V * v = arf2R r * k' /\ Rabs (k' - 1) <= c ^ (n + 2 * length fs) - 1.
  Proof.
    intros Hwp fs v Hv. induction Hv as [|a fs v w Ha Hf IH]; intros Hok ret r V c k Hc Hret HV n Hk Hr.
    - injection Hr as <-. split; [exact Hret|]. exists k. split; [rewrite HV; ring|].
      simpl length. replace (n + 2 * 0)%nat with n by lia. exact Hk.
    - cbn [mul_factors] in Hr. destruct (arf_atom rng fuel a wp) as [f|] eqn:Ef; [|discriminate].
      destruct (atom_accurate rng a v fuel wp f (Hok a (or_introl eq_refl)) Ha Ef) as [Hacc Hf0].
      rewrite clamp_pos in Hacc by lia.
      destruct (accurate_rel wp f v Hf0 Hacc) as (d1 & Hd1 & Ev).
      set (S := arf2R ret * arf2R f).
      assert (HS : S <> 0) by (apply Rmult_integral_contrapositive; split; assumption).
      assert (Hm : arf2R (arf_mul wp NEAR ret f) = rndN wp S) by (rewrite arf_mul_spec by lia; reflexivity).
      destruct (rndN_rel wp S ltac:(lia) HS) as (d2 & Hd2 & ES).
      specialize (IH (fun a' H => Hok a' (or_intror H)) (arf_mul wp NEAR ret f) r (V * v) c (k * (1 + d1) * (1 + d2)) Hc).
      rewrite Hm in IH. specialize (IH (rndN_neq0 wp S ltac:(lia) HS)).
      assert (E1 : V * v = rndN wp S * (k * (1 + d1) * (1 + d2))).
      { rewrite HV, Ev. transitivity (S * k * (1 + d1)); [unfold S; ring|]. rewrite ES at 1. ring. }
      specialize (IH E1 (n + 2)%nat).
      assert (E2 : Rabs (k * (1 + d1) * (1 + d2) - 1) <= c ^ (n + 2) - 1).
      { replace (c ^ (n + 2)) with (c ^ n * c * c) by (rewrite pow_add; simpl; ring).
        apply one_plus_bound; [apply one_plus_bound; [exact Hk|]|]; rewrite Hc.
        - replace (1 + d1 - 1) with d1 by ring. lra.
        - replace (1 + d2 - 1) with d2 by ring. lra. }
      specialize (IH E2 Hr). destruct IH as (Hr0 & k' & HE & HK). split; [exact Hr0|].
      exists k'. split; [rewrite <- HE; ring|].
      cbn [length]. replace (n + 2 * Datatypes.S (length fs))%nat with (n + 2 + 2 * length fs)%nat by lia. exact HK.
  Qed.

  Lemma mul_factors_returns wp fs : (forall a, In a fs -> atom_ok rng a) ->
    exists fuel0, forall ret, exists r, forall fuel, (fuel0 <= fuel)%nat -> mul_factors rng fuel wp fs ret = Some r.
  Proof.
    induction fs as [|a fs IH]; intros Hok.
    - exists 0%nat. intros ret. exists ret. reflexivity.
    - destruct IH as [f1 H1]; [intros; apply Hok; right; assumption|].
      destruct (atom_returns rng a wp (Hok a (or_introl eq_refl))) as (f2 & b & H2).
      exists (Nat.max f1 f2). intros ret. destruct (H1 (arf_mul wp NEAR ret b)) as [r Hr].
      exists r. intros fuel Hf. cbn [mul_factors]. rewrite H2 by lia. apply Hr. lia.
  Qed.

  (** [(1+u)^m <= 1 + m u + 3/5 (m u)^2] as long as [m u <= 1/6]. *)
  Lemma pow_bound u m : 0 <= u -> INR m * u <= 1 / 6 -> (1 + u) ^ m <= 1 + INR m * u + 3 / 5 * (INR m * u) ^ 2.
  Proof.
    intros Hu. induction m as [|m IH]; intros Hm.
    - simpl. lra.
    - rewrite S_INR in *. pose proof (pos_INR m). assert (Hm' : INR m * u <= 1 / 6) by nra.
      specialize (IH Hm'). cbn [pow] in *. 
      assert (0 <= INR m * u) by nra.
      apply Rle_trans with ((1 + u) * (1 + INR m * u + 3 / 5 * (INR m * u * (INR m * u * 1)))); [nra|].
      set (t := INR m) in *.
      assert (3 / 5 * t * u * (t * u * u) <= 1 / 10 * (t * u * u)) by nra.
      nra.
  Qed.

  Lemma factors_ok ms : (forall a k, In (a, k) ms -> atom_ok rng a /\ (0 < k)%nat) ->
    forall a, In a (factors ms) -> atom_ok rng a.
  Proof.
    intros H a Ha. unfold factors in Ha. apply in_flat_map in Ha as ([b k] & Hb & Hr).
    apply repeat_spec in Hr. subst. apply (H b k Hb).
  Qed.

  Lemma factors_nonempty ms : ms <> [] -> (forall a k, In (a, k) ms -> atom_ok rng a /\ (0 < k)%nat) -> (1 <= length (factors ms))%nat.
  Proof.
    destruct ms as [|[a k] ms]; intros Hne H; [congruence|].
    destruct (H a k (or_introl eq_refl)) as [_ Hk]. unfold factors; simpl. rewrite app_length, repeat_length. lia.
  Qed.

  Lemma prod_accurate_two ms v fuel prec a : num_ok rng (RProd ms) -> prod_value rng ms v -> (2 <= prec)%Z ->
    arf_prod rng fuel ms prec = Some a -> accurate (prec - 1) a v /\ arf2R a <> 0.
  Proof.
    intros [Hne Hok] Hv Hp H. unfold arf_prod in H.
    set (fs := factors ms) in *. set (n := length fs) in *.
    set (wp := working_prec (Z.of_nat n) prec) in *.
    destruct (mul_factors rng fuel wp fs (arf_of_Z 1)) as [r|] eqn:Er; [|discriminate].
    injection H as <-.
    pose proof (factors_nonempty ms Hne Hok) as Hn. fold fs in Hn. fold n in Hn.
    assert (Hwp : (prec <= wp)%Z) by (unfold wp, working_prec; pose proof (Z.log2_up_nonneg (Z.of_nat n * 2 + (Z.of_nat n - 1) + 1)); lia).
    assert (H1 : arf2R (arf_of_Z 1) = 1) by apply arf_of_Z_spec.
    assert (H1n : arf2R (arf_of_Z 1) <> 0) by (rewrite H1; apply R1_neq_R0).
    assert (H1v : 1 = arf2R (arf_of_Z 1) * 1) by (rewrite H1; ring).
    destruct (mul_factors_bound fuel wp ltac:(lia) fs v (prod_factors_value ms v Hv) (factors_ok ms Hok)
      (arf_of_Z 1) r 1 _ 1 eq_refl H1n H1v 0%nat ltac:(simpl; rewrite Rminus_eq_0, Rabs_R0; lra) Er)
      as (Hr0 & k & Hk & Hkb).
    fold n in Hkb. rewrite Rmult_1_l in Hk.
    set (A := arf2R r) in *. set (u := bpow radix2 (- wp)) in *.
    assert (Hu0 : 0 <= u) by (left; apply bpow2_pos).
    set (h := bpow radix2 (- prec)).
    assert (Hh : 0 < h <= 1 / 4).
    { split; [apply bpow2_pos|]. unfold h. replace (1 / 4) with (bpow radix2 (-2)) by (simpl; lra). apply bpow_le. lia. }
    assert (Hnu : INR (2 * n) * u <= 2 / 3 * h).
    { unfold u, h, wp, working_prec. set (L := Z.log2_up (Z.of_nat n * 2 + (Z.of_nat n - 1) + 1)).
      assert (HL : (Z.of_nat n * 3 <= 2 ^ L)%Z).
      { unfold L. replace (Z.of_nat n * 2 + (Z.of_nat n - 1) + 1)%Z with (Z.of_nat n * 3)%Z by lia.
        apply (Z.log2_log2_up_spec (Z.of_nat n * 3)). lia. }
      assert (HL0 : (0 <= L)%Z) by apply Z.log2_up_nonneg.
      apply IZR_le in HL. rewrite mult_IZR, IZR_pow2 in HL by exact HL0.
      replace (- (prec + L))%Z with (- prec + - L)%Z by lia. rewrite bpow_plus.
      pose proof (bpow2_pos (- prec)). pose proof (bpow2_pos (- L)). pose proof (bpow2_pos L).
      assert (HLL : bpow radix2 L * bpow radix2 (- L) = 1) by (rewrite <- bpow_plus; replace (L + - L)%Z with 0%Z by lia; reflexivity).
      rewrite mult_INR, (INR_IZR_INZ n). replace (INR 2) with 2 by (simpl; ring).
      assert (IZR (Z.of_nat n) * bpow radix2 (- L) <= 1 / 3).
      { apply Rmult_le_compat_r with (r := bpow radix2 (- L)) in HL; [|lra]. lra. }
      replace (2 * IZR (Z.of_nat n) * (bpow radix2 (- prec) * bpow radix2 (- L)))
        with (2 * bpow radix2 (- prec) * (IZR (Z.of_nat n) * bpow radix2 (- L))) by ring.
      replace (2 / 3 * bpow radix2 (- prec)) with (2 * bpow radix2 (- prec) * (1 / 3)) by field.
      apply Rmult_le_compat_l; lra. }
    assert (Hnu0 : 0 <= INR (2 * n) * u) by (apply Rmult_le_pos; [apply pos_INR|exact Hu0]).
    assert (Hpow : (1 + u) ^ (2 * n) - 1 <= 3 / 4 * h).
    { pose proof (pow_bound u (2 * n) Hu0 ltac:(lra)) as PB.
      replace ((INR (2 * n) * u) ^ 2) with ((INR (2 * n) * u) * (INR (2 * n) * u)) in PB by ring.
      set (t := INR (2 * n) * u) in *.
      assert (t * t <= 2 / 3 * h * (2 / 3 * h)) by (apply Rmult_le_compat; lra).
      nra. }
    assert (HA0 : A <> 0) by exact Hr0.
    pose proof (bpow_mag_gt radix2 A) as HAm.
    assert (Hval : arf2R (arf_round NEAR (prec + 1) r) = rndN (prec + 1) A) by (rewrite arf_round_spec by lia; reflexivity).
    split; [|rewrite Hval; apply rndN_neq0; [lia|exact HA0]].
    unfold accurate. rewrite Hval.
    pose proof (rndN_half_ulp (prec + 1) A ltac:(lia) HA0) as HE.
    pose proof (rndN_mag (prec + 1) A ltac:(lia) HA0) as HM.
    assert (HVA : Rabs (v - A) <= bpow radix2 (mag radix2 A) * (3 / 4 * h)).
    { replace (v - A) with (A * (k - 1)) by (rewrite Hk; ring). rewrite Rabs_mult.
      replace (0 + 2 * n)%nat with (2 * n)%nat in Hkb by lia.
      apply Rmult_le_compat; [apply Rabs_pos|apply Rabs_pos|left; exact HAm|].
      eapply Rle_trans; [exact Hkb|exact Hpow]. }
    replace (v - rndN (prec + 1) A) with ((v - A) + (A - rndN (prec + 1) A)) by ring.
    eapply Rle_trans; [apply Rabs_triang|].
    apply Rle_trans with (bpow radix2 (mag radix2 A) * h).
    - replace (mag radix2 A - 1 - (prec + 1))%Z with (mag radix2 A + - prec + (-2))%Z in HE by lia.
      rewrite !bpow_plus in HE. fold h in HE. replace (bpow radix2 (-2)) with (1/4) in HE by (simpl; lra). lra.
    - unfold h. rewrite <- bpow_plus. apply bpow_le. lia.
  Qed.
End Products.

(** One bit. *)
Lemma pow_exp_bound u k : 0 <= u -> INR k * u <= 1 / 3 -> (1 + u) ^ k - 1 <= 424 / 1000.
Proof.
  intros Hu Ht. set (t := INR k * u) in *.
  assert (Ht0 : 0 <= t) by (apply Rmult_le_pos; [apply pos_INR|exact Hu]).
  assert (He : forall j, (1 + u) ^ j <= exp (INR j * u)).
  { induction j as [|j IH]; [rewrite Rmult_0_l, exp_0; simpl; lra|].
    rewrite S_INR. replace ((INR j + 1) * u) with (u + INR j * u) by ring. rewrite exp_plus. simpl pow.
    apply Rmult_le_compat; [lra|apply pow_le; lra| |exact IH].
    destruct (Req_dec u 0) as [->|Hn]; [rewrite exp_0; lra|]. left. apply exp_ineq1. exact Hn. }
  specialize (He k). fold t in He.
  assert (E3 : exp t = exp (t / 3) * exp (t / 3) * exp (t / 3)) by (rewrite <- !exp_plus; f_equal; field).
  assert (Ei : exp (t / 3) * exp (- (t / 3)) = 1) by (rewrite <- exp_plus, Rplus_opp_r; apply exp_0).
  assert (El : 1 - t / 3 <= exp (- (t / 3))).
  { destruct (Req_dec t 0) as [->|Hn]; [unfold Rdiv; rewrite Rmult_0_l, Ropp_0, exp_0; lra|]. left. pose proof (exp_ineq1 (- (t / 3)) ltac:(lra)). lra. }
  assert (Ep : 0 < exp (t / 3)) by apply exp_pos.
  assert (Eu : exp (t / 3) <= 9 / 8).
  { assert (exp (t / 3) * (8 / 9) <= 1); [|lra]. rewrite <- Ei. apply Rmult_le_compat_l; lra. }
  assert (E2 : exp (t / 3) * exp (t / 3) <= 9 / 8 * (9 / 8)) by (apply Rmult_le_compat; lra).
  assert (E4 : exp (t / 3) * exp (t / 3) * exp (t / 3) <= 9 / 8 * (9 / 8) * (9 / 8)).
  { apply Rmult_le_compat; try lra. apply Rmult_le_pos; lra. }
  lra.
Qed.
Lemma prod_accurate_one rng ms v fuel a : num_ok rng (RProd ms) -> prod_value rng ms v ->
  arf_prod rng fuel ms 1 = Some a -> accurate 0 a v /\ arf2R a <> 0.
Proof.
  intros [Hne Hok] Hv H. unfold arf_prod in H.
  set (fs := factors ms) in *. set (n := length fs) in *.
  set (wp := working_prec (Z.of_nat n) 1) in *.
  destruct (mul_factors rng fuel wp fs (arf_of_Z 1)) as [r|] eqn:Er; [|discriminate].
  injection H as <-.
  pose proof (factors_nonempty rng ms Hne Hok) as Hn. fold fs in Hn. fold n in Hn.
  assert (Hwp : (1 <= wp)%Z) by (unfold wp, working_prec; pose proof (Z.log2_up_nonneg (Z.of_nat n * 2 + (Z.of_nat n - 1) + 1)); lia).
  assert (H1 : arf2R (arf_of_Z 1) = 1) by apply arf_of_Z_spec.
  assert (H1n : arf2R (arf_of_Z 1) <> 0) by (rewrite H1; apply R1_neq_R0).
  assert (H1v : 1 = arf2R (arf_of_Z 1) * 1) by (rewrite H1; ring).
  destruct (mul_factors_bound rng fuel wp ltac:(lia) fs v (prod_factors_value rng ms v Hv) (factors_ok rng ms Hok)
    (arf_of_Z 1) r 1 _ 1 eq_refl H1n H1v 0%nat ltac:(simpl; rewrite Rminus_eq_0, Rabs_R0; lra) Er)
    as (Hr0 & k & Hk & Hkb).
  fold n in Hkb. rewrite Rmult_1_l in Hk.
  set (A := arf2R r) in *. set (u := bpow radix2 (- wp)) in *.
  assert (Hu0 : 0 <= u) by (left; apply bpow2_pos).
  assert (Hnu : INR (2 * n) * u <= 1 / 3).
  { unfold u, wp, working_prec. set (L := Z.log2_up (Z.of_nat n * 2 + (Z.of_nat n - 1) + 1)).
    assert (HL : (Z.of_nat n * 3 <= 2 ^ L)%Z).
    { unfold L. replace (Z.of_nat n * 2 + (Z.of_nat n - 1) + 1)%Z with (Z.of_nat n * 3)%Z by lia.
      apply (Z.log2_log2_up_spec (Z.of_nat n * 3)). lia. }
    assert (HL0 : (0 <= L)%Z) by apply Z.log2_up_nonneg.
    apply IZR_le in HL. rewrite mult_IZR, IZR_pow2 in HL by exact HL0.
    replace (- (1 + L))%Z with (-1 + - L)%Z by lia. rewrite bpow_plus.
    pose proof (bpow2_pos (- L)). pose proof (bpow2_pos L).
    assert (HLL : bpow radix2 L * bpow radix2 (- L) = 1) by (rewrite <- bpow_plus; replace (L + - L)%Z with 0%Z by lia; reflexivity).
    rewrite mult_INR, (INR_IZR_INZ n). replace (INR 2) with 2 by (simpl; ring). replace (bpow radix2 (-1)) with (1 / 2) by (simpl; lra).
    assert (IZR (Z.of_nat n) * bpow radix2 (- L) <= 1 / 3).
    { apply Rmult_le_compat_r with (r := bpow radix2 (- L)) in HL; [|lra]. lra. }
    lra. }
  pose proof (pow_exp_bound u (2 * n) Hu0 Hnu) as Hpow.
  assert (HA0 : A <> 0) by exact Hr0.
  pose proof (bpow_mag_gt radix2 A) as HAm.
  assert (Hval : arf2R (arf_round NEAR 2 r) = rndN 2 A) by (rewrite arf_round_spec by lia; reflexivity).
  change (1 + 1)%Z with 2%Z. split; [|rewrite Hval; apply rndN_neq0; [lia|exact HA0]].
  unfold accurate. rewrite Hval.
  pose proof (rndN_half_ulp 2 A ltac:(lia) HA0) as HE.
  pose proof (rndN_mag 2 A ltac:(lia) HA0) as HM.
  set (B := bpow radix2 (mag radix2 A)) in *. assert (HB : 0 < B) by apply bpow2_pos.
  replace (mag radix2 A - 1 - 2)%Z with (mag radix2 A + (-3))%Z in HE by lia. rewrite bpow_plus in HE. fold B in HE. replace (bpow radix2 (-3)) with (1 / 8) in HE by (simpl; lra).
  assert (HVA : Rabs (v - A) <= Rabs A * (424 / 1000)).
  { replace (v - A) with (A * (k - 1)) by (rewrite Hk; ring). rewrite Rabs_mult.
    replace (0 + 2 * n)%nat with (2 * n)%nat in Hkb by lia.
    apply Rmult_le_compat_l; [apply Rabs_pos|]. eapply Rle_trans; [exact Hkb|exact Hpow]. }
  assert (HT : Rabs (v - rndN 2 A) <= Rabs A * (424 / 1000) + B * (1 / 8)).
  { replace (v - rndN 2 A) with ((v - A) + (A - rndN 2 A)) by ring. eapply Rle_trans; [apply Rabs_triang|]. apply Rplus_le_compat; assumption. }
  eapply Rle_trans; [exact HT|].
  destruct (Z.eq_dec (mag radix2 (rndN 2 A)) (mag radix2 A)) as [Em|Em].
  - rewrite Em. replace (mag radix2 A - 1 - 0)%Z with (mag radix2 A + (-1))%Z by lia. rewrite bpow_plus. fold B. replace (bpow radix2 (-1)) with (1 / 2) by (simpl; lra).
    assert (HR : Rabs (rndN 2 A) <= B - B * (1 / 4)).
    { assert (V2 : Prec_gt_0 2) by reflexivity.
      assert (G : generic_format radix2 (FLX_exp 2) (Rabs (rndN 2 A))) by (apply generic_format_abs; apply generic_format_round; auto with typeclass_instances).
      assert (GB : generic_format radix2 (FLX_exp 2) B) by (apply generic_format_bpow; unfold FLX_exp; lia).
      assert (LT : Rabs (rndN 2 A) < B) by (unfold B; rewrite <- Em; apply bpow_mag_gt).
      pose proof (pred_ge_gt radix2 (FLX_exp 2) _ _ G GB LT) as P. unfold B in P at 1. rewrite pred_bpow in P. unfold FLX_exp in P. replace (mag radix2 A - 2)%Z with (mag radix2 A + (-2))%Z in P by lia.
      rewrite bpow_plus in P. fold B in P. replace (bpow radix2 (-2)) with (1 / 4) in P by (simpl; lra). exact P. }
    assert (Rabs A <= Rabs (rndN 2 A) + B * (1 / 8)).
    { replace A with (rndN 2 A + (A - rndN 2 A)) at 1 by ring. eapply Rle_trans; [apply Rabs_triang|]. lra. }
    lra.
  - apply Rle_trans with B; [lra|]. unfold B. apply bpow_le. lia.
Qed.
Lemma prod_accurate rng ms v fuel prec a : num_ok rng (RProd ms) -> prod_value rng ms v -> (1 <= prec)%Z ->
  arf_prod rng fuel ms prec = Some a -> accurate (prec - 1) a v /\ arf2R a <> 0.
Proof.
  intros Hok Hv Hp H. destruct (Z.eq_dec prec 1) as [->|Hn]; [exact (prod_accurate_one rng ms v fuel a Hok Hv H)|].
  exact (prod_accurate_two rng ms v fuel prec a Hok Hv ltac:(lia) H).
Qed.

(** All kinds of numbers: [arf] terminates. *)
Lemma num_arf_returns rng x prec : num_ok rng x ->
  exists fuel0 a, forall fuel, (fuel0 <= fuel)%nat -> num_arf rng fuel x prec = Some a.
Proof.
  intros Hok. unfold num_arf. fold (clamp prec). destruct x as [q|a|ms].
  - exists 0%nat. eexists. reflexivity.
  - apply atom_returns. exact Hok.
  - destruct Hok as [Hne Hok].
    destruct (mul_factors_returns rng (working_prec (Z.of_nat (length (factors ms))) (clamp prec)) (factors ms) (factors_ok rng ms Hok)) as [f0 H0].
    destruct (H0 (arf_of_Z 1)) as [r Hr]. exists f0. eexists. intros fuel Hf. unfold arf_prod. rewrite Hr by exact Hf. reflexivity.
Qed.

(** [arf] is independent of the fuel (it is a partial function). *)
Lemma atom_fuel rng a prec fuel fuel' b : (fuel <= fuel')%nat ->
  arf_atom rng fuel a prec = Some b -> arf_atom rng fuel' a prec = Some b.
Proof.
  intros Hf. destruct a as [seed|initial e seed]; simpl.
  - unfold arf_random. apply random_loop_fuel. exact Hf.
  - unfold arf_constr. fold (clamp prec). destruct (0 <? clamp prec + 1 - arf_bits initial)%Z; [|auto].
    destruct (arf_random rng fuel seed (clamp prec + 1 - arf_bits initial - 1)) as [r|] eqn:E; [|discriminate].
    unfold arf_random in E |- *. eapply random_loop_fuel in E; [|exact Hf]. rewrite E. auto.
Qed.

Lemma mul_factors_fuel rng wp fs fuel fuel' : (fuel <= fuel')%nat -> forall ret b,
  mul_factors rng fuel wp fs ret = Some b -> mul_factors rng fuel' wp fs ret = Some b.
Proof.
  intros Hf. induction fs as [|a fs IH]; intros ret b; cbn [mul_factors]; [auto|].
  destruct (arf_atom rng fuel a wp) eqn:E; [|discriminate].
  rewrite (atom_fuel rng a wp fuel fuel' _ Hf E). apply IH.
Qed.

Lemma num_arf_fuel rng x prec fuel fuel' a : (fuel <= fuel')%nat ->
  num_arf rng fuel x prec = Some a -> num_arf rng fuel' x prec = Some a.
Proof.
  intros Hf. unfold num_arf. destruct x as [q|b|ms]; [auto|apply atom_fuel; exact Hf|].
  unfold arf_prod. set (wp := working_prec _ _).
  destruct (mul_factors rng fuel wp (factors ms) (arf_of_Z 1)) eqn:E; [|discriminate].
  rewrite (mul_factors_fuel rng wp _ fuel fuel' Hf _ _ E). auto.
Qed.

Lemma num_arf_det rng x prec fuel fuel' a b :
  num_arf rng fuel x prec = Some a -> num_arf rng fuel' x prec = Some b -> a = b.
Proof.
  intros Ha Hb. apply (num_arf_fuel rng x prec fuel (Nat.max fuel fuel')) in Ha; [|lia].
  apply (num_arf_fuel rng x prec fuel' (Nat.max fuel fuel')) in Hb; [|lia]. congruence.
Qed.
