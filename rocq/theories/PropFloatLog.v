(** C107: precisions computed with the floating point logarithm. *)
From Coq Require Import ZArith QArith Reals Lra Lia List.
From Flocq Require Import Core.
From Verif Require Import Arf Arb Real Gen Ring Module Element Loops FloatLog SpecFloatLog.
Import ListNotations.
Open Scope R_scope.

Lemma fl_int n : (Z.abs n <= 2 ^ 53)%Z -> fl (IZR n) = IZR n.
Proof.
  intros H. unfold fl. apply round_generic; [typeclasses eauto|]. apply generic_format_FLT. 
  destruct (Z.eq_dec (Z.abs n) (2 ^ 53)) as [E|N].
  - exists (Float radix2 (n / 2) 1); cbn [Fnum Fexp].
    + unfold F2R. cbn [Fnum Fexp]. change (bpow radix2 1) with 2. rewrite <- mult_IZR. f_equal.
      destruct (Z.abs_spec n) as [[_ A]|[_ A]]; rewrite A in E; [subst n; reflexivity|]. assert (n = - 2 ^ 53)%Z as -> by lia. reflexivity.
    + change (radix2 ^ 53)%Z with (2 ^ 53)%Z. apply Z.abs_lt. split; [apply Z.lt_le_trans with (- (2 ^ 53) / 2)%Z; [reflexivity|apply Z.div_le_mono; lia]|].
      apply Z.le_lt_trans with (2 ^ 53 / 2)%Z; [apply Z.div_le_mono; lia|reflexivity].
    + lia.
  - exists (Float radix2 n 0); cbn [Fnum Fexp]; [unfold F2R; cbn; ring|change (radix2 ^ 53)%Z with (2 ^ 53)%Z; lia|lia].
Qed.

Lemma ln2_pos : 0 < ln 2. Proof. rewrite <- ln_1. apply ln_increasing; lra. Qed.
Lemma ln_le_sub1 x : 0 < x -> ln x <= x - 1.
Proof. intros H. pose proof (exp_ineq1_le (ln x)) as E. rewrite exp_ln in E by exact H. lra. Qed.
Lemma ln2_le : ln 2 <= 1. Proof. pose proof (ln_le_sub1 2 ltac:(lra)). lra. Qed.
Lemma ln_pow2 k : ln (2 ^ k) = INR k * ln 2. Proof. apply ln_pow. lra. Qed.

(** Integers strictly between powers of two: the logarithm stays away from integers. *)
Lemma log2_gap (n : Z) (k : nat) : (2 ^ Z.of_nat k < n < 2 ^ Z.of_nat (S k))%Z ->
  INR k + / 2 ^ S k <= ln (IZR n) / ln 2 <= INR (S k) - / 2 ^ S k.
Proof.
  intros [H1 H2]. pose proof ln2_pos as P2. pose proof ln2_le as L2.
  assert (Hk : 0 < 2 ^ k) by (apply pow_lt; lra). assert (HS : 0 < 2 ^ S k) by (apply pow_lt; lra).
  assert (E1 : IZR (2 ^ Z.of_nat k) = 2 ^ k) by (rewrite <- pow_IZR; reflexivity).
  assert (E2 : IZR (2 ^ Z.of_nat (S k)) = 2 ^ S k) by (rewrite <- pow_IZR; reflexivity).
  assert (B1 : 2 ^ k + 1 <= IZR n) by (rewrite <- E1, <- plus_IZR; apply IZR_le; lia).
  assert (B2 : IZR n <= 2 ^ S k - 1) by (rewrite <- E2, <- minus_IZR; apply IZR_le; lia).
  assert (D : 2 ^ S k = 2 * 2 ^ k) by reflexivity.
  assert (One : 1 <= 2 ^ k) by (apply pow_R1_Rle; lra).
  split.
  - apply Rmult_le_reg_r with (ln 2); [exact P2|]. unfold Rdiv. rewrite Rmult_assoc, Rinv_l, Rmult_1_r by lra.
    rewrite Rmult_plus_distr_r, <- ln_pow2.
    (* ln (2^k / n) <= 2^k/n - 1 <= - 1/(2^k+1) *)
    pose proof (ln_le_sub1 (2 ^ k / IZR n) ltac:(apply Rdiv_lt_0_compat; lra)) as L. unfold Rdiv in L. rewrite ln_mult, ln_Rinv in L; [|lra|lra|apply Rinv_0_lt_compat; lra].
    assert (Q : 2 ^ k * / IZR n <= 1 - / 2 ^ S k).
    { apply Rmult_le_reg_r with (IZR n); [lra|]. rewrite Rmult_assoc, Rinv_l, Rmult_1_r by lra. rewrite Rmult_minus_distr_r, Rmult_1_l.
      assert (/ 2 ^ S k * IZR n <= 1). { apply Rmult_le_reg_l with (2 ^ S k); [exact HS|]. rewrite <- Rmult_assoc, Rinv_r, Rmult_1_l by lra. lra. }
      lra. }
    assert (/ 2 ^ S k * ln 2 <= / 2 ^ S k * 1) by (apply Rmult_le_compat_l; [left; apply Rinv_0_lt_compat; exact HS|exact L2]). lra.
  - apply Rmult_le_reg_r with (ln 2); [exact P2|]. unfold Rdiv. rewrite Rmult_assoc, Rinv_l, Rmult_1_r by lra.
    rewrite Rmult_minus_distr_r, <- ln_pow2.
    pose proof (ln_le_sub1 (IZR n / 2 ^ S k) ltac:(apply Rdiv_lt_0_compat; lra)) as L. unfold Rdiv in L. rewrite ln_mult, ln_Rinv in L; [|lra|lra|apply Rinv_0_lt_compat; lra].
    assert (Q : IZR n * / 2 ^ S k <= 1 - / 2 ^ S k).
    { apply Rmult_le_reg_r with (2 ^ S k); [exact HS|]. rewrite Rmult_assoc, Rinv_l, Rmult_1_r by lra. rewrite Rmult_minus_distr_r, Rinv_l by lra. lra. }
    assert (/ 2 ^ S k * ln 2 <= / 2 ^ S k * 1) by (apply Rmult_le_compat_l; [left; apply Rinv_0_lt_compat; exact HS|exact L2]). lra.
Qed.

Lemma log2_cases n : (1 <= n)%Z -> (exists k, n = 2 ^ Z.of_nat k /\ Z.log2_up n = Z.of_nat k)%Z \/ (exists k, 2 ^ Z.of_nat k < n < 2 ^ Z.of_nat (S k) /\ Z.log2_up n = Z.of_nat (S k))%Z.
Proof.
  intros H. destruct (Z.eq_dec n 1) as [->|N1]; [left; exists 0%nat; split; reflexivity|].
  pose proof (Z.log2_up_spec n ltac:(lia)) as [A B]. pose proof (Z.log2_up_pos n ltac:(lia)) as P.
  destruct (Z.eq_dec n (2 ^ Z.log2_up n)) as [E|N].
  - left. exists (Z.to_nat (Z.log2_up n)). rewrite Z2Nat.id by lia. split; [exact E|reflexivity].
  - right. exists (Z.to_nat (Z.pred (Z.log2_up n))). rewrite Nat2Z.inj_succ, Z2Nat.id by lia. rewrite Z.succ_pred. lia.
Qed.

Lemma small_gap k : (k <= 44)%nat -> / 2 ^ 46 < / 2 ^ S k.
Proof. intros H. apply Rinv_lt_contravar; [apply Rmult_lt_0_compat; apply pow_lt; lra|]. apply Rlt_pow; [lra|lia]. Qed.
Lemma pow_bound k n : (n <= 2 ^ 45)%Z -> (2 ^ Z.of_nat k < n)%Z -> (k <= 44)%nat.
Proof. intros H1 H2. destruct (Nat.le_gt_cases k 44) as [H|H]; [exact H|exfalso]. assert (2 ^ 45 <= 2 ^ Z.of_nat k)%Z by (apply Z.pow_le_mono_r; lia). lia. Qed.

Lemma ceil_between z x : IZR z - 1 < x <= IZR z -> Zceil x = z.
Proof. intros [H1 H2]. apply Zceil_imp. rewrite minus_IZR. split; assumption. Qed.

Lemma range n : (1 <= n <= 2 ^ 45)%Z -> 1 <= IZR n <= 2 ^ 53.
Proof. intros [H1 H2]. split; [apply (IZR_le 1); exact H1|]. rewrite (pow_IZR 2 53). apply IZR_le. apply Z.le_trans with (1 := H2). discriminate. Qed.

Lemma ceil_log2 clog2 n : close_log2 clog2 -> (1 <= n <= 2 ^ 45)%Z ->
  (Zceil (clog2 (IZR n)) = Z.log2_up n \/ n = 2 ^ Z.log2_up n /\ Zceil (clog2 (IZR n)) = Z.log2_up n + 1)%Z /\ (exact_log2 clog2 -> Zceil (clog2 (IZR n)) = Z.log2_up n).
Proof.
  intros Hc Hn. pose proof (Hc (IZR n) (range n Hn)) as C. apply Rabs_le_inv in C. destruct (log2_cases n (proj1 Hn)) as [(k & En & El)|(k & Bn & El)].
  - assert (Eq : IZR n = 2 ^ k) by (rewrite En, <- pow_IZR; reflexivity). assert (Lq : ln (IZR n) / ln 2 = INR k) by (rewrite Eq, ln_pow2; field; pose proof ln2_pos; lra).
    assert (Hk : (k <= 53)%nat). { destruct (Nat.le_gt_cases k 53) as [H|H]; [exact H|exfalso]. assert (2 ^ 54 <= 2 ^ Z.of_nat k)%Z by (apply Z.pow_le_mono_r; lia). lia. }
    rewrite Lq in C. rewrite El. assert (e46 : / 2 ^ 46 < 1) by (rewrite <- Rinv_1; apply Rinv_lt_contravar; [rewrite Rmult_1_l; apply pow_lt; lra|apply Rlt_pow_R1; [lra|lia]]).
    assert (e0 : 0 < / 2 ^ 46) by (apply Rinv_0_lt_compat, pow_lt; lra). split.
    + destruct (Rle_lt_dec (clog2 (IZR n)) (INR k)) as [D|D].
      * left. apply ceil_between. rewrite <- INR_IZR_INZ. lra.
      * right. split; [exact En|]. apply ceil_between. rewrite plus_IZR, <- INR_IZR_INZ. lra.
    + intros X. rewrite Eq, (X k Hk), INR_IZR_INZ. apply Zceil_IZR.
  - pose proof (log2_gap n k Bn) as [G1 G2]. pose proof (small_gap k (pow_bound k n (proj2 Hn) (proj1 Bn))) as G.
    assert (Z0 : Zceil (clog2 (IZR n)) = Z.log2_up n). { rewrite El. apply ceil_between. rewrite <- INR_IZR_INZ. rewrite S_INR in *. lra. }
    split; [left; exact Z0|intros _; exact Z0].
Qed.

Lemma extra_bits_arg n : (1 <= n <= 2 ^ 31 - 1)%Z -> fl (fl (IZR (n * 2 + (n - 1))) + 1) = IZR (n * 2 + (n - 1) + 1).
Proof. intros H. rewrite fl_int by lia. rewrite <- plus_IZR. apply fl_int. lia. Qed.

(** The number of additional bits is the least b such that 2^b is at least three times the number of factors, the rank respectively. *)
Theorem C107_factors : forall clog2 n, close_log2 clog2 -> exact_log2 clog2 -> (1 <= n <= 2 ^ 31 - 1)%Z -> is_log2_up (3 * n) (extra_bits clog2 n).
Proof.
  intros clog2 n Hc Hx Hn. unfold extra_bits. rewrite extra_bits_arg by exact Hn. rewrite (proj2 (ceil_log2 clog2 (n * 2 + (n - 1) + 1) Hc ltac:(lia)) Hx).
  replace (n * 2 + (n - 1) + 1)%Z with (3 * n)%Z by lia. split; [apply Z.log2_up_nonneg|]. split; [apply Z.log2_up_le_pow2; lia|]. intros c Hc0 H. apply Z.log2_up_le_pow2; lia.
Qed.
Theorem C107_rank : forall clog2 n, close_log2 clog2 -> exact_log2 clog2 -> (1 <= n <= 2 ^ 31 - 1)%Z -> is_log2_up n (rank_bits clog2 n).
Proof.
  intros clog2 n Hc Hx Hn. unfold rank_bits. rewrite fl_int by lia. rewrite (proj2 (ceil_log2 clog2 n Hc ltac:(lia)) Hx).
  split; [apply Z.log2_up_nonneg|]. split; [apply Z.log2_up_le_pow2; lia|]. intros c Hc0 H. apply Z.log2_up_le_pow2; lia.
Qed.
(** If the logarithm is not exact for powers of two, there may be one bit more, never less. *)
Theorem C107_not_less : forall clog2 n b, close_log2 clog2 -> (1 <= n <= 2 ^ 31 - 1)%Z ->
  (is_log2_up (3 * n) b -> b <= extra_bits clog2 n <= b + 1)%Z /\ (is_log2_up n b -> b <= rank_bits clog2 n <= b + 1)%Z.
Proof.
  intros clog2 n b Hc Hn.
  assert (U : forall m c, (1 <= m)%Z -> is_log2_up m c -> c = Z.log2_up m).
  { intros m c Hm (A & B & C). apply Z.le_antisymm; [apply C; [apply Z.log2_up_nonneg|apply Z.log2_up_le_pow2; lia]|apply Z.log2_up_le_pow2; lia]. }
  split; intros Hb; apply U in Hb; try lia; subst b.
  - unfold extra_bits. rewrite extra_bits_arg by exact Hn. replace (n * 2 + (n - 1) + 1)%Z with (3 * n)%Z by lia. destruct (ceil_log2 clog2 (3 * n) Hc ltac:(lia)) as [[E|[_ E]] _]; lia.
  - unfold rank_bits. rewrite fl_int by lia. destruct (ceil_log2 clog2 n Hc ltac:(lia)) as [[E|[_ E]] _]; lia.
Qed.
(** So approximations of real numbers and of elements are those of the other properties, with the exact logarithm. *)
Theorem C107_arf : forall clog2 rng fuel x prec, close_log2 clog2 -> exact_log2 clog2 ->
  (forall ms, x = RProd ms -> 1 <= Z.of_nat (fold_right (fun m n => snd m + n)%nat 0%nat ms) <= 2 ^ 31 - 1)%Z ->
  num_arf_fl clog2 rng fuel x prec = num_arf rng fuel x prec.
Proof.
  intros clog2 rng fuel x prec Hc Hx Hd. unfold num_arf_fl, num_arf. destruct x as [q|a|ms]; try reflexivity. unfold arf_prod_fl, arf_prod.
  assert (L : length (factors ms) = fold_right (fun m n => snd m + n)%nat 0%nat ms).
  { clear. unfold factors. induction ms as [|[a k] ms IH]; [reflexivity|]. cbn [flat_map fold_right snd]. rewrite app_length, repeat_length, IH. reflexivity. }
  specialize (Hd ms eq_refl). rewrite <- L in Hd. unfold working_prec, extra_bits. rewrite extra_bits_arg by exact Hd. set (n := Z.of_nat (length (factors ms))) in *. rewrite (proj2 (ceil_log2 clog2 (n * 2 + (n - 1) + 1) Hc ltac:(lia)) Hx). reflexivity.
Qed.
Theorem C107_elements : forall (A : ring) clog2 mag_up garb (carb : car A -> Z -> arb) rounds x accuracy, close_log2 clog2 -> exact_log2 clog2 ->
  (Z.of_nat (length (coeffs x)) <= 2 ^ 31 - 1)%Z -> length (coeffs x) = length (basis (emodule x)) ->
  elem_arb_fl clog2 mag_up garb carb rounds x accuracy = elem_arb mag_up garb carb rounds x accuracy.
Proof.
  intros A clog2 mag_up garb carb rounds x accuracy Hc Hx Hr Hl. unfold elem_arb_fl, elem_arb. destruct (negb (nonzero x)) eqn:Hn; [reflexivity|].
  f_equal. f_equal. unfold rank_bits. assert (R1 : rank (emodule x) = length (coeffs x)) by (rewrite Hl; reflexivity). rewrite R1.
  assert (0 < length (coeffs x))%nat. { destruct (coeffs x) as [|c cs] eqn:E; [|cbn; lia]. unfold nonzero in Hn. rewrite E in Hn. discriminate. }
  rewrite fl_int by lia. apply (ceil_log2 clog2 (Z.of_nat (length (coeffs x))) Hc ltac:(lia)). exact Hx.
Qed.
(** The correctly rounded logarithm is such a function. *)
Definition rounded_log2 (x : R) : R := fl (ln x / ln 2).
Lemma prec53 : Prec_gt_0 53.
Proof. reflexivity. Qed.
Local Existing Instance prec53.
Lemma rounded_close : close_log2 rounded_log2.
Proof.
  intros x [H1 H2]. unfold rounded_log2, fl. set (y := ln x / ln 2). pose proof ln2_pos as P.
  assert (Y0 : 0 <= y). { unfold y. apply Rmult_le_pos; [|left; apply Rinv_0_lt_compat; exact P]. rewrite <- ln_1. destruct H1 as [H1|<-]; [left; apply ln_increasing; lra|right; reflexivity]. }
  assert (Y1 : y <= bpow radix2 6).
  { change (bpow radix2 6) with 64. unfold y. apply Rmult_le_reg_r with (ln 2); [exact P|]. unfold Rdiv. rewrite Rmult_assoc, Rinv_l, Rmult_1_r by lra.
    replace (64 * ln 2) with (INR 64 * ln 2) by (rewrite INR_IZR_INZ; reflexivity). rewrite <- ln_pow2. left. apply ln_increasing; [lra|]. apply Rle_lt_trans with (1 := H2). apply Rlt_pow; [lra|lia]. }
  apply Rle_trans with (1 := error_le_half_ulp radix2 (FLT_exp (-1074) 53) (fun z => negb (Z.even z)) y).
  assert (U : ulp radix2 (FLT_exp (-1074) 53) y <= ulp radix2 (FLT_exp (-1074) 53) (bpow radix2 6)) by (apply ulp_le_pos; [typeclasses eauto..|exact Y0|exact Y1]).
  rewrite ulp_bpow in U. change (FLT_exp (-1074) 53 (6 + 1)) with (-46)%Z in U. change (bpow radix2 (-46)) with (/ IZR (Z.pow_pos 2 46)) in U. rewrite (pow_IZR 2 46). change (2 ^ Z.of_nat 46)%Z with (Z.pow_pos 2 46).
  pose proof (ulp_ge_0 radix2 (FLT_exp (-1074) 53) y). lra.
Qed.
Lemma rounded_exact : exact_log2 rounded_log2.
Proof.
  intros k Hk. unfold rounded_log2. rewrite ln_pow2. replace (INR k * ln 2 / ln 2) with (IZR (Z.of_nat k)) by (rewrite <- INR_IZR_INZ; field; pose proof ln2_pos; lra).
  rewrite fl_int by lia. symmetry. apply INR_IZR_INZ.
Qed.
Example C107_example : close_log2 rounded_log2 /\ exact_log2 rounded_log2 /\
  extra_bits rounded_log2 1 = 2%Z /\ extra_bits rounded_log2 5 = 4%Z /\ extra_bits rounded_log2 6 = 5%Z /\ extra_bits rounded_log2 (2 ^ 31 - 1) = 33%Z /\
  rank_bits rounded_log2 1 = 0%Z /\ rank_bits rounded_log2 8 = 3%Z /\ rank_bits rounded_log2 9 = 4%Z.
Proof.
  pose proof rounded_close as Hc. pose proof rounded_exact as Hx. split; [exact Hc|]. split; [exact Hx|].
  repeat split; unfold extra_bits, rank_bits; rewrite ?extra_bits_arg by lia; rewrite ?fl_int by lia;
    match goal with |- Zceil (rounded_log2 (IZR ?n)) = _ => rewrite (proj2 (ceil_log2 rounded_log2 n Hc ltac:(lia)) Hx) end; reflexivity.
Qed.
