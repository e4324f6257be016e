(** Proofs about printed numbers *)
From Coq Require Import ZArith Bool List Ascii String Reals Lia Lra.
From Flocq Require Import Core.
From Verif Require Import Arf Arb SpecArf ArfProofs Real Double SpecDouble Text SpecText PropText Output SpecOutput.
Import ListNotations.
Open Scope Z_scope.

(** * Decimal logarithms *)
Lemma log10_loop_spec fuel : forall n, 0 < n < 2 ^ Z.of_nat fuel -> 0 <= log10_loop fuel n /\ 10 ^ log10_loop fuel n <= n < 10 ^ (log10_loop fuel n + 1).
Proof.
  induction fuel as [|f IH]; intros n Hn; [change (2 ^ Z.of_nat 0) with 1 in Hn; lia|]. cbn [log10_loop]. destruct (Z.ltb_spec n 10) as [L|L].
  - change (10 ^ 0) with 1. change (10 ^ (0 + 1)) with 10. lia.
  - assert (Q : 0 < n / 10) by (apply Z.div_str_pos; lia). assert (B : n / 10 < 2 ^ Z.of_nat f).
    { rewrite Nat2Z.inj_succ, Z.pow_succ_r in Hn by lia. apply Z.div_lt_upper_bound; lia. }
    destruct (IH (n / 10) (conj Q B)) as (P & A & C). set (k := log10_loop f (n / 10)) in *.
    pose proof (Z.div_mod n 10 ltac:(lia)) as E. pose proof (Z.mod_pos_bound n 10 ltac:(lia)) as M.
    rewrite (Z.pow_add_r 10 k 1), (Z.pow_add_r 10 (k + 1) 1) by lia. change (10 ^ 1) with 10. lia.
Qed.
Lemma log10_spec n : 0 < n -> 0 <= log10 n /\ 10 ^ log10 n <= n < 10 ^ (log10 n + 1).
Proof.
  intros Hn. unfold log10. apply log10_loop_spec. split; [exact Hn|]. pose proof (Z.log2_nonneg n). rewrite Z2Nat.id by lia. rewrite Z.add_1_r. apply Z.log2_spec. exact Hn.
Qed.
Lemma log10_up_spec n : 1 < n -> 0 < log10_up n /\ 10 ^ (log10_up n - 1) < n <= 10 ^ log10_up n.
Proof.
  intros Hn. unfold log10_up. destruct (Z.leb_spec n 1); [lia|]. destruct (log10_spec (n - 1) ltac:(lia)) as (P & A & B). replace (log10 (n - 1) + 1 - 1) with (log10 (n - 1)) by lia. lia.
Qed.

(** * Powers of ten *)
Local Open Scope R_scope.
Lemma IZR_pow10 k : (0 <= k)%Z -> IZR (10 ^ k) = powerRZ 10 k.
Proof.
  intros Hk. rewrite <- (Z2Nat.id k) by exact Hk. rewrite <- pow_powerRZ. rewrite (pow_IZR 10 (Z.to_nat k)). reflexivity.
Qed.
Lemma pow10_pos k : 0 < powerRZ 10 k.
Proof. apply powerRZ_lt. lra. Qed.
Lemma pow10_add j k : powerRZ 10 (j + k) = powerRZ 10 j * powerRZ 10 k.
Proof. apply powerRZ_add. lra. Qed.
Lemma pow10_opp k : powerRZ 10 (- k) * powerRZ 10 k = 1.
Proof. rewrite <- pow10_add. replace (- k + k)%Z with 0%Z by lia. reflexivity. Qed.

Lemma leading_spec n d : (0 < n)%Z -> (0 < d)%Z -> powerRZ 10 (leading n d) <= IZR n / IZR d < powerRZ 10 (leading n d + 1).
Proof.
  intros Hn Hd. assert (Pd : 0 < IZR d) by (apply IZR_lt; exact Hd). assert (Pn : 0 < IZR n) by (apply IZR_lt; exact Hn).
  assert (Key : forall a b, a * IZR d <= IZR n < b * IZR d -> a <= IZR n / IZR d < b).
  { intros a b [H1 H2]. split; [apply Rmult_le_reg_r with (IZR d)|apply Rmult_lt_reg_r with (IZR d)]; try exact Pd; unfold Rdiv; rewrite Rmult_assoc, Rinv_l by lra; lra. }
  apply Key. unfold leading. destruct (Z.leb_spec d n) as [L|L].
  - assert (Q : (0 < n / d)%Z) by (apply Z.div_str_pos; lia). destruct (log10_spec (n / d) Q) as (P & A & B). set (k := log10 (n / d)) in *.
    pose proof (Z.div_mod n d ltac:(lia)) as E. pose proof (Z.mod_pos_bound n d ltac:(lia)) as M.
    rewrite <- !IZR_pow10 by lia. rewrite <- !mult_IZR. split; [apply IZR_le|apply IZR_lt]; nia.
  - set (c := ((d + n - 1) / n)%Z). pose proof (Z.div_mod (d + n - 1) n ltac:(lia)) as E. pose proof (Z.mod_pos_bound (d + n - 1) n ltac:(lia)) as M. fold c in E.
    assert (C : (1 < c)%Z) by nia. destruct (log10_up_spec c C) as (P & A & B). set (k := log10_up c) in *.
    assert (U : (d <= 10 ^ k * n)%Z) by nia. assert (W : (10 ^ (k - 1) * n < d)%Z) by nia.
    apply IZR_le in U. apply IZR_lt in W. rewrite mult_IZR, IZR_pow10 in U, W by lia.
    pose proof (pow10_opp k) as O1. pose proof (pow10_opp (k - 1)) as O2. replace (- (k - 1))%Z with (- k + 1)%Z in O2 by lia.
    pose proof (pow10_pos (- k)) as P1. pose proof (pow10_pos (- k + 1)) as P2. split.
    + apply Rle_trans with (powerRZ 10 (- k) * (powerRZ 10 k * IZR n)); [apply Rmult_le_compat_l; lra|]. rewrite <- Rmult_assoc, O1. lra.
    + apply Rle_lt_trans with (powerRZ 10 (- k + 1) * (powerRZ 10 (k - 1) * IZR n)); [rewrite <- Rmult_assoc, O2; lra|]. apply Rmult_lt_compat_l; lra.
Qed.

(** * Rounding to integers *)
Lemma div_near_spec n d : (0 < d)%Z -> Rabs (IZR (div_near n d) - IZR n / IZR d) <= / 2.
Proof.
  intros Hd. assert (Pd : 0 < IZR d) by (apply IZR_lt; exact Hd).
  assert (H : (2 * Z.abs (div_near n d * d - n) <= d)%Z).
  { unfold div_near. pose proof (Z.div_mod n d ltac:(lia)) as E. pose proof (Z.mod_pos_bound n d ltac:(lia)) as M. set (q := (n / d)%Z) in *. set (r := (n mod d)%Z) in *.
    destruct (Z.compare_spec (2 * r) d); [destruct (Z.even q)| |]; rewrite E at 1; nia. }
  replace (IZR (div_near n d) - IZR n / IZR d) with (IZR (div_near n d * d - n) / IZR d) by (rewrite minus_IZR, mult_IZR; field; lra).
  unfold Rdiv. rewrite Rabs_mult, (Rabs_pos_eq (/ IZR d)) by (left; apply Rinv_0_lt_compat; exact Pd). rewrite <- abs_IZR.
  apply Rmult_le_reg_r with (IZR d); [exact Pd|]. rewrite Rmult_assoc, Rinv_l by lra. apply IZR_le in H. rewrite mult_IZR in H. lra.
Qed.
Lemma div_near_tie n d : (0 < d)%Z -> Rabs (IZR (div_near n d) - IZR n / IZR d) = / 2 -> Z.even (div_near n d) = true.
Proof.
  intros Hd H. assert (Pd : 0 < IZR d) by (apply IZR_lt; exact Hd).
  assert (E2 : (2 * Z.abs (div_near n d * d - n) = d)%Z).
  { apply eq_IZR. rewrite mult_IZR, abs_IZR, minus_IZR, mult_IZR. replace (IZR (div_near n d) * IZR d - IZR n) with ((IZR (div_near n d) - IZR n / IZR d) * IZR d) by (field; lra).
    rewrite Rabs_mult, (Rabs_pos_eq (IZR d)) by lra. rewrite H. lra. }
  clear H. unfold div_near in *. pose proof (Z.div_mod n d ltac:(lia)) as E. pose proof (Z.mod_pos_bound n d ltac:(lia)) as M. set (q := (n / d)%Z) in *. set (r := (n mod d)%Z) in *.
  destruct (Z.compare_spec (2 * r) d) as [C|C|C].
  - destruct (Z.even q) eqn:Ev; [exact Ev|]. rewrite Z.even_add, Ev. reflexivity.
  - exfalso. replace (q * d - n)%Z with (- r)%Z in E2 by lia. lia.
  - exfalso. replace ((q + 1) * d - n)%Z with (d - r)%Z in E2 by lia. lia.
Qed.
Lemma scaled_spec n d k : (0 < d)%Z -> Rabs (IZR (scaled n d k) - IZR n / IZR d * powerRZ 10 k) <= / 2 /\
  (Rabs (IZR (scaled n d k) - IZR n / IZR d * powerRZ 10 k) = / 2 -> Z.even (scaled n d k) = true).
Proof.
  intros Hd. assert (Pd : 0 < IZR d) by (apply IZR_lt; exact Hd). unfold scaled. destruct (Z.leb_spec 0 k) as [L|L].
  - pose proof (conj (div_near_spec (n * 10 ^ k) d Hd) (div_near_tie (n * 10 ^ k) d Hd)) as H. rewrite mult_IZR, IZR_pow10 in H by exact L. replace (IZR n / IZR d * powerRZ 10 k) with (IZR n * powerRZ 10 k / IZR d) by (field; lra). exact H.
  - assert (P : (0 < 10 ^ (- k))%Z) by (apply Z.pow_pos_nonneg; lia). pose proof (conj (div_near_spec n (d * 10 ^ (- k)) ltac:(nia)) (div_near_tie n (d * 10 ^ (- k)) ltac:(nia))) as H. rewrite mult_IZR, IZR_pow10 in H by lia.
    pose proof (pow10_opp k) as O. pose proof (pow10_pos (- k)) as Pk. replace (IZR n / IZR d * powerRZ 10 k) with (IZR n / (IZR d * powerRZ 10 (- k))); [exact H|].
    replace (powerRZ 10 k) with (/ powerRZ 10 (- k)); [field; split; lra|]. apply Rmult_eq_reg_l with (powerRZ 10 (- k)); [|lra]. rewrite Rinv_r by lra. symmetry. exact O.
Qed.
(** Six digits, and the number that they denote *)
Lemma six_digits_spec n d D X : (0 < n)%Z -> (0 < d)%Z -> six_digits n d = (D, X) ->
  (100000 <= D < 1000000)%Z /\ six_digits_of (IZR n / IZR d) (IZR D * powerRZ 10 (X - 5)).
Proof.
  intros Hn Hd. unfold six_digits. set (X0 := leading n d). set (D0 := scaled n d (5 - X0)). pose proof (leading_spec n d Hn Hd) as [L U]. fold X0 in L, U.
  pose proof (scaled_spec n d (5 - X0) Hd) as [S T]. fold D0 in S, T. set (v := IZR n / IZR d) in *.
  assert (E : powerRZ 10 (X0 - 5) * powerRZ 10 (5 - X0) = 1) by (rewrite <- pow10_add; replace (X0 - 5 + (5 - X0))%Z with 0%Z by lia; reflexivity).
  assert (A : powerRZ 10 X0 * powerRZ 10 (5 - X0) = 100000) by (rewrite <- pow10_add; replace (X0 + (5 - X0))%Z with 5%Z by lia; rewrite <- IZR_pow10 by lia; reflexivity).
  assert (B : powerRZ 10 (X0 + 1) * powerRZ 10 (5 - X0) = 1000000) by (rewrite <- pow10_add; replace (X0 + 1 + (5 - X0))%Z with 6%Z by lia; rewrite <- IZR_pow10 by lia; reflexivity).
  pose proof (pow10_pos (5 - X0)) as P. pose proof (pow10_pos (X0 - 5)) as P'. pose proof (pow10_pos X0) as P0.
  assert (L' : 100000 <= v * powerRZ 10 (5 - X0)) by (rewrite <- A; apply Rmult_le_compat_r; lra).
  assert (U' : v * powerRZ 10 (5 - X0) < 1000000) by (rewrite <- B; apply Rmult_lt_compat_r; lra).
  apply Rabs_le_inv in S. assert (D1 : (99999 < D0)%Z) by (apply lt_IZR; lra). assert (D2 : (D0 < 1000001)%Z) by (apply lt_IZR; lra).
  assert (N : six_digits_of v (IZR D0 * powerRZ 10 (X0 - 5))).
  { exists X0, D0. rewrite Rabs_pos_eq by lra. split; [split; assumption|]. split; [reflexivity|].
    replace (IZR D0 * powerRZ 10 (X0 - 5) - v) with ((IZR D0 - v * powerRZ 10 (5 - X0)) * powerRZ 10 (X0 - 5)) by (rewrite Rmult_minus_distr_r, Rmult_assoc, (Rmult_comm (powerRZ 10 (5 - X0))), E; ring).
    rewrite Rabs_mult, (Rabs_pos_eq (powerRZ 10 (X0 - 5))) by lra. assert (Rabs (IZR D0 - v * powerRZ 10 (5 - X0)) <= / 2) by (apply Rabs_le; lra). split.
    - apply Rle_trans with (/ 2 * powerRZ 10 (X0 - 5)); [apply Rmult_le_compat_r; lra|lra].
    - intros Q. apply T. apply (Rmult_eq_reg_r (powerRZ 10 (X0 - 5))); [|lra]. rewrite Q. lra. }
  destruct (Z.ltb_spec D0 1000000) as [C|C]; intros Q; injection Q; intros; subst.
  - split; [lia|exact N].
  - split; [lia|]. assert (D0 = 1000000%Z) as E0 by lia. rewrite E0 in N. replace (IZR 100000 * powerRZ 10 (X0 + 1 - 5)) with (1000000 * powerRZ 10 (X0 - 5)); [exact N|].
    replace (X0 + 1 - 5)%Z with (1 + (X0 - 5))%Z by lia. rewrite pow10_add, <- (IZR_pow10 1) by lia. change (10 ^ 1)%Z with 10%Z. lra.
Qed.
