(** Printed numbers: texts *)
From Coq Require Import ZArith Bool List Ascii String Reals Lia Lra.
From Flocq Require Import Core.
From Verif Require Import Arf Arb SpecArf ArfProofs Real Double SpecDouble Text SpecText PropText PropIeee Output SpecOutput OutputProofs.
Import ListNotations.
Open Scope Z_scope.

(** * Digits of fractions *)
Fixpoint val (ds : list Z) : Z := match ds with [] => 0 | d :: l => d * 10 ^ Z.of_nat (List.length l) + val l end.
Definition digits_ok (ds : list Z) : Prop := Forall (fun d => 0 <= d < 10) ds.
Lemma chars_length ds : String.length (chars ds) = List.length ds.
Proof. induction ds as [|d l IH]; cbn; [reflexivity|]. fold (chars l). rewrite IH. reflexivity. Qed.
Lemma numeral_chars ds : digits_ok ds -> numeral 10 (chars ds) (val ds).
Proof.
  induction 1 as [|d l Hd Hl IH]; [constructor|]. cbn [val]. rewrite <- chars_length. change (chars (d :: l)) with (String (digit_char d) (chars l)).
  constructor; [apply char_digit_iff, digit_char_digit; lia|lia|exact IH].
Qed.
Lemma padded_spec p : forall n acc, 0 <= n -> digits_ok acc -> digits_ok (padded p n acc) /\ List.length (padded p n acc) = (p + List.length acc)%nat /\
  val (padded p n acc) = n mod 10 ^ Z.of_nat p * 10 ^ Z.of_nat (List.length acc) + val acc.
Proof.
  induction p as [|p IH]; intros n acc Hn Ha; cbn [padded].
  - change (10 ^ Z.of_nat 0) with 1. rewrite Z.mod_1_r. split; [exact Ha|]. split; [reflexivity|lia].
  - pose proof (Z.mod_pos_bound n 10 ltac:(lia)) as M. destruct (IH (n / 10) (n mod 10 :: acc)) as (A & B & C); [apply Z.div_pos; lia|constructor; [lia|exact Ha]|].
    split; [exact A|]. split; [rewrite B; cbn; lia|]. rewrite C. cbn [List.length val]. rewrite !Nat2Z.inj_succ, !Z.pow_succ_r by lia.
    rewrite (Z.rem_mul_r n 10 (10 ^ Z.of_nat p)) by (try lia; apply Z.pow_nonzero; lia). ring.
Qed.
Lemma strip_spec ds : digits_ok ds -> digits_ok (strip ds) /\ exists k, List.length ds = (List.length (strip ds) + k)%nat /\ val ds = val (strip ds) * 10 ^ Z.of_nat k.
Proof.
  induction 1 as [|d l Hd Hl IH]; [split; [constructor|exists 0%nat; split; reflexivity]|]. destruct IH as (A & k & B & C). cbn [strip fold_right]. fold (strip l).
  destruct (strip l) as [|e l'] eqn:E.
  - destruct (Z.eqb_spec d 0) as [->|N]; cbn [andb].
    + split; [constructor|]. exists (S k). cbn [val List.length] in *. split; [lia|]. rewrite C. cbn. reflexivity.
    + split; [constructor; [exact Hd|exact A]|]. exists k. cbn [val List.length] in *. split; [lia|]. rewrite C, B. cbn [Nat.add]. change (10 ^ Z.of_nat 0) with 1. generalize (10 ^ Z.of_nat k). intros w. ring.
  - rewrite andb_false_r. split; [constructor; [exact Hd|exact A]|]. exists k. split; [cbn [List.length] in *; lia|].
    assert (V : forall x l0, val (x :: l0) = x * 10 ^ Z.of_nat (List.length l0) + val l0) by reflexivity.
    rewrite (V d l), (V d (e :: l')), C, B, Nat2Z.inj_add, Z.pow_add_r by lia. ring.
Qed.
Lemma strip_zero ds : digits_ok ds -> val ds = 0 -> strip ds = [].
Proof.
  induction 1 as [|d l Hd Hl IH]; [reflexivity|]. cbn [val]. intros V. cbn [strip fold_right]. fold (strip l).
  assert (N : 0 <= val l). { clear -Hl. induction Hl as [|d l Hd Hl IH]; cbn [val]; [lia|]. assert (0 <= 10 ^ Z.of_nat (List.length l)) by (apply Z.pow_nonneg; lia). nia. }
  assert (P : 0 < 10 ^ Z.of_nat (List.length l)) by (apply Z.pow_pos_nonneg; lia). assert (d = 0) as -> by nia. rewrite IH by lia. reflexivity.
Qed.
Lemma get_str_pos n : 0 <= n -> get_str 10 n = abs_str 10 n.
Proof. intros Hn. rewrite get_str_eq. destruct (Z.ltb_spec n 0); [lia|reflexivity]. Qed.
Lemma get_str_numeral n : 0 <= n -> get_str 10 n <> EmptyString /\ numeral 10 (get_str 10 n) n.
Proof. intros Hn. rewrite get_str_pos by exact Hn. pose proof (abs_str_numeral 10 n ltac:(lia)) as H. rewrite Z.abs_eq in H by exact Hn. exact H. Qed.

Lemma fixed_spec D p : 0 <= D -> unsigned_decimal (fixed D p) (IZR D / 10 ^ p).
Proof.
  intros HD. unfold fixed. assert (P : 0 < 10 ^ Z.of_nat p) by (apply Z.pow_pos_nonneg; lia).
  pose proof (Z.div_mod D (10 ^ Z.of_nat p) ltac:(lia)) as E. pose proof (Z.mod_pos_bound D (10 ^ Z.of_nat p) P) as M. set (q := D / 10 ^ Z.of_nat p) in *. set (r := D mod 10 ^ Z.of_nat p) in *.
  assert (Hq : 0 <= q) by (apply Z.div_pos; lia). destruct (get_str_numeral q Hq) as [G1 G2].
  destruct (padded_spec p r [] ltac:(lia) ltac:(constructor)) as (A & B & C). destruct (strip_spec _ A) as (S1 & k & S2 & S3).
  cbn [val List.length] in C. rewrite Z.add_0_r, Z.mul_1_r, (Z.mod_small r) in C by exact M. rewrite B in S2. cbn [List.length] in S2. rewrite C in S3.
  assert (R10 : (10 ^ p = IZR (10 ^ Z.of_nat p))%R) by (rewrite <- pow_IZR; reflexivity).
  assert (P10 : (0 < 10 ^ p)%R) by (apply pow_lt; lra). set (ds := strip (padded p r [])) in *. clearbody ds.
  destruct ds as [|d l].
  - cbn [List.length val] in *. replace (get_str 10 q ++ "")%string with (get_str 10 q) by (clear; induction (get_str 10 q) as [|c s IH]; cbn; [reflexivity|rewrite <- IH; reflexivity]).
    replace (IZR D / 10 ^ p)%R with (IZR q); [apply dec_int; assumption|]. rewrite E, S3. rewrite R10, plus_IZR, !mult_IZR. field. apply IZR_neq. lia.
  - replace (IZR D / 10 ^ p)%R with (IZR q + IZR (val (d :: l)) / 10 ^ String.length (chars (d :: l)))%R.
    + apply dec_frac; [exact G1|exact G2|discriminate|apply numeral_chars; exact S1].
    + rewrite chars_length. rewrite E, S3. rewrite plus_IZR, !mult_IZR, <- R10, <- (pow_IZR 10 k). replace p with (List.length (d :: l) + k)%nat by lia. rewrite pow_add. field. split; apply pow_nonzero; lra.
Qed.
Lemma powerRZ_nat p : (10 ^ p)%R = powerRZ 10 (Z.of_nat p).
Proof. apply pow_powerRZ. Qed.
Lemma div_pow10 x k : (x / powerRZ 10 k)%R = (x * powerRZ 10 (- k))%R.
Proof. pose proof (pow10_opp k) as O. pose proof (pow10_pos k) as P. unfold Rdiv. f_equal. apply Rmult_eq_reg_r with (powerRZ 10 k); [|lra]. rewrite Rinv_l by lra. symmetry. exact O. Qed.

Lemma zero_numeral s n : numeral 10 s n -> numeral 10 (String "0" s) n.
Proof.
  intros H. replace n with (0 * 10 ^ Z.of_nat (String.length s) + n) by ring. constructor; [|lia|exact H]. exact (digit_num 0 ltac:(lia)).
Qed.
Lemma g_positive_spec n d : 0 < n -> 0 < d -> exists u, scientific (g_positive n d) u /\ six_digits_of (IZR n / IZR d)%R u.
Proof.
  intros Hn Hd. unfold g_positive. destruct (six_digits n d) as [D X] eqn:E. destruct (six_digits_spec n d D X Hn Hd E) as [HD N].
  exists (IZR D * powerRZ 10 (X - 5))%R. split; [|exact N]. destruct ((-4 <=? X) && (X <? 6)) eqn:C.
  - apply andb_true_iff in C. destruct C as [C1 C2]. apply Z.leb_le in C1. apply Z.ltb_lt in C2. apply sci_plain.
    pose proof (fixed_spec D (Z.to_nat (5 - X)) ltac:(lia)) as F. rewrite powerRZ_nat, Z2Nat.id, div_pow10 in F by lia. replace (- (5 - X)) with (X - 5) in F by lia. exact F.
  - pose proof (fixed_spec D 5 ltac:(lia)) as F. rewrite powerRZ_nat, div_pow10 in F. change (- Z.of_nat 5) with (-5) in F.
    destruct (get_str_numeral (Z.abs X) ltac:(lia)) as [G1 G2].
    assert (K : exists t, exponent_str X = String (if X <? 0 then "-"%char else "+"%char) t /\ t <> EmptyString /\ numeral 10 t (Z.abs X)).
    { unfold exponent_str. eexists. split; [reflexivity|]. destruct (Z.abs X <? 10); cbn [append]; [|split; assumption]. split; [discriminate|apply zero_numeral; exact G2]. }
    destruct K as (t & -> & T1 & T2). replace (X - 5) with (-5 + X) by lia. rewrite pow10_add, <- Rmult_assoc. destruct (Z.ltb_spec X 0) as [L|L].
    + replace (powerRZ 10 X) with (powerRZ 10 (- Z.abs X)) by (f_equal; lia). apply sci_minus; assumption.
    + replace (powerRZ 10 X) with (powerRZ 10 (Z.abs X)) by (f_equal; lia). apply sci_plus; assumption.
Qed.

(** * Floats as fractions *)
Lemma arf_fraction a : (Rabs (arf2R a) = IZR (arf_num a) / IZR (arf_den a))%R /\ 0 <= arf_num a /\ 0 < arf_den a /\ (am a <> 0 -> 0 < arf_num a).
Proof.
  unfold arf2R, arf_num, arf_den. rewrite Rabs_mult, (Rabs_pos_eq (bpow radix2 _)) by apply bpow_ge_0. rewrite <- abs_IZR. destruct (Z.leb_spec 0 (ae a)) as [L|L].
  - assert (P : 0 < 2 ^ ae a) by (apply Z.pow_pos_nonneg; lia). split; [|nia]. rewrite mult_IZR, IZR_pow2 by exact L. field.
  - assert (P : 0 < 2 ^ (- ae a)) by (apply Z.pow_pos_nonneg; lia). split; [|nia]. rewrite Z.mul_1_r, IZR_pow2, bpow_opp by lia. field. apply bpow_neq0.
Qed.
Lemma six_digits_abs v u : six_digits_of (Rabs v) u -> six_digits_of v (if Rlt_dec v 0 then - u else u)%R.
Proof.
  intros (X & D & B & E & N). rewrite Rabs_Rabsolu in B. destruct (Rlt_dec v 0) as [L|L].
  - exists X, (- D). split; [exact B|]. split; [rewrite opp_IZR; lra|]. rewrite (Rabs_left v) in N by exact L. replace (- u - v)%R with (- (u - - v))%R by ring. rewrite Rabs_Ropp, Z.even_opp. exact N.
  - exists X, D. split; [exact B|]. split; [exact E|]. rewrite (Rabs_pos_eq v) in N by lra. exact N.
Qed.
Lemma show_double_spec a : am a <> 0 -> exists u, decimal_text (show_double (DFin a)) u /\ six_digits_of (arf2R a) u.
Proof.
  intros Ha. destruct (arf_fraction a) as (E & _ & Pd & Pn). destruct (g_positive_spec _ _ (Pn Ha) Pd) as (u & S & N). rewrite <- E in N. apply six_digits_abs in N.
  cbn [show_double]. destruct (Z.eqb_spec (am a) 0) as [|_]; [contradiction|]. destruct (Rlt_dec (arf2R a) 0) as [L|L].
  - exists (- u)%R. split; [|exact N]. apply arf_sign in L. rewrite L. apply decimal_neg. exact S.
  - exists u. split; [|exact N]. destruct (am a <? 0) eqn:C; [apply arf_sign in C; contradiction|]. apply decimal_pos. exact S.
Qed.

(** * Integers *)
Lemma div_near_exact k d : 0 < d -> div_near (k * d) d = k.
Proof. intros Hd. unfold div_near. rewrite Z.div_mul, Z.mod_mul by lia. change (2 * 0) with 0. destruct (Z.compare_spec 0 d); lia. Qed.
Lemma g_positive_integer k d : 0 < k < 1000000 -> 0 < d -> g_positive (k * d) d = get_str 10 k.
Proof.
  intros Hk Hd. unfold g_positive, six_digits. assert (L : leading (k * d) d = log10 k) by (unfold leading; destruct (Z.leb_spec d (k * d)); [rewrite Z.div_mul by lia; reflexivity|nia]).
  rewrite L. destruct (log10_spec k ltac:(lia)) as (P & A & B). set (X := log10 k) in *.
  assert (HX : X < 6). { destruct (Z.lt_ge_cases X 6); [assumption|]. assert (10 ^ 6 <= 10 ^ X) by (apply Z.pow_le_mono_r; lia). change (10 ^ 6) with 1000000 in *. lia. }
  assert (S : scaled (k * d) d (5 - X) = k * 10 ^ (5 - X)).
  { unfold scaled. destruct (Z.leb_spec 0 (5 - X)); [|lia]. rewrite <- (div_near_exact (k * 10 ^ (5 - X)) d Hd) at 1. f_equal. ring. }
  rewrite S. assert (D : k * 10 ^ (5 - X) < 1000000). { apply Z.lt_le_trans with (10 ^ (X + 1) * 10 ^ (5 - X)); [apply Z.mul_lt_mono_pos_r; [apply Z.pow_pos_nonneg; lia|exact B]|]. rewrite <- Z.pow_add_r by lia. replace (X + 1 + (5 - X)) with 6 by lia. reflexivity. }
  destruct (Z.ltb_spec (k * 10 ^ (5 - X)) 1000000); [|lia]. destruct (Z.leb_spec (-4) X); [|lia]. destruct (Z.ltb_spec X 6); [|lia]. cbn [andb]. unfold fixed.
  rewrite Z2Nat.id by lia. assert (P5 : 0 < 10 ^ (5 - X)) by (apply Z.pow_pos_nonneg; lia). rewrite Z.div_mul, Z.mod_mul by lia.
  destruct (padded_spec (Z.to_nat (5 - X)) 0 [] ltac:(lia) ltac:(constructor)) as (Q1 & _ & Q2). rewrite strip_zero; [|exact Q1|rewrite Q2, Zmod_0_l; reflexivity].
  clear. induction (get_str 10 k) as [|c s IH]; cbn; [reflexivity|rewrite IH; reflexivity].
Qed.
Lemma show_double_integer a k : arf2R a = IZR k -> Z.abs k < 1000000 -> show_double (DFin a) = get_str 10 k.
Proof.
  intros E Hk. destruct (arf_fraction a) as (F & _ & Pd & Pn). cbn [show_double]. destruct (Z.eqb_spec (am a) 0) as [Z0|N].
  - assert (IZR k = 0%R) as K by (rewrite <- E; unfold arf2R; rewrite Z0; ring). apply eq_IZR in K. subst k. reflexivity.
  - specialize (Pn N). rewrite E, <- abs_IZR in F. assert (Q : arf_num a = Z.abs k * arf_den a). { apply eq_IZR. rewrite mult_IZR, F. field. apply IZR_neq. lia. }
    assert (K0 : 0 < Z.abs k) by nia. rewrite Q, g_positive_integer by lia. rewrite get_str_pos, (get_str_eq 10 k) by lia. unfold abs_str. rewrite Z.abs_involutive.
    assert (S : (am a <? 0) = (k <? 0)). { apply eq_true_iff_eq. rewrite arf_sign, E, Z.ltb_lt. split; [apply lt_IZR|apply IZR_lt]. }
    rewrite S. destruct (k <? 0); reflexivity.
Qed.
