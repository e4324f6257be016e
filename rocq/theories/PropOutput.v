(** C86-C88: what operator<< writes for floats, real numbers and modules *)
From Coq Require Import ZArith QArith Qreals Bool List Ascii String Reals Lia Lra.
From Flocq Require Import Core.
From Verif Require Import Arf Arb SpecArf ArfProofs Real SpecReal SpecLoops Double SpecDouble Text SpecText PropText PropIeee Rand48Proofs RealProofs RealProofs2 RealProofs3 Output SpecOutput OutputProofs OutputProofs2 OutputProofs3 Fast48.
Import ListNotations.
Open Scope Z_scope.

(** * C86: floats *)
(** Text denotes at most one number. *)
Theorem C86_reading_unique : forall s u v, (decimal_text s u -> decimal_text s v -> u = v) /\ (exact_text s u -> exact_text s v -> u = v).
Proof. intros s u v. split; [apply decimal_unique|apply exact_unique]. Qed.
(** A double is written with six digits, rounded to nearest. *)
Theorem C86_double : forall a, arf2R a <> 0%R -> exists u, decimal_text (show_double (DFin a)) u /\ six_digits_of (arf2R a) u.
Proof. intros a Ha. apply show_double_spec. intros E. apply Ha. unfold arf2R. rewrite E. ring. Qed.
(** Two halves: 1000005 is written like 1000000, 1000015 like 1000020. *)
Example C86_double_tie : show_double (DFin (mkArf 1000005 0)) = "1e+06"%string /\ show_double (DFin (mkArf 1000015 0)) = "1.00002e+06"%string.
Proof. split; vm_compute; reflexivity. Qed.
(** Integers with at most six digits are written with all their digits. *)
Theorem C86_double_integer : forall a k, arf2R a = IZR k -> Z.abs k < 1000000 -> integer_text 10 (show_double (DFin a)) k.
Proof. intros a k E H. rewrite (show_double_integer a k E H). apply C79_get_str. lia. Qed.

Lemma integer_exponent a : am a <> 0 -> (0 <=? arf_exponent a) = true <-> exists k, arf2R a = IZR k.
Proof.
  intros Ha. destruct (arf_mantissa_odd a) as (E & Odd & _). assert (N : arf2R a <> 0%R) by (intros V; apply Ha; apply arf2R_eq0; exact V). specialize (Odd N). split.
  - intros H. apply Z.leb_le in H. exists (arf_mantissa a * 2 ^ arf_exponent a). rewrite mult_IZR, IZR_pow2 by exact H. exact E.
  - intros [k K]. apply Z.leb_le. destruct (Z.le_gt_cases 0 (arf_exponent a)) as [|L]; [assumption|exfalso].
    assert (arf_mantissa a = k * 2 ^ (- arf_exponent a)) as M.
    { apply eq_IZR. rewrite mult_IZR, IZR_pow2, <- K, E, bpow_opp by lia. field. apply bpow_neq0. }
    rewrite M in Odd. replace (- arf_exponent a) with (1 + (- arf_exponent a - 1)) in Odd by lia. rewrite Z.pow_add_r in Odd by lia. change (2 ^ 1) with 2 in Odd.
    rewrite !Z.odd_mul in Odd. cbn [Z.odd andb] in Odd. rewrite andb_false_r in Odd. discriminate Odd.
Qed.
Lemma small_integer_double a k : arf2R a = IZR k -> Z.abs k < 1000000 -> exists b, arf_get_d a = DFin b /\ arf2R b = IZR k.
Proof.
  intros E H. assert (N : nearest_double (IZR k) = IZR k).
  { apply round_generic; [exact _|]. apply generic_format_FLT. exists (Float radix2 k 0); [unfold F2R; cbn; ring|cbn [Fnum]; change (radix_val radix2) with 2; lia|cbn; lia]. }
  pose proof (C82_float a) as D. rewrite E in D. destruct (arf_get_d a) as [b|s]; cbn [ieee_nearest] in D; rewrite N in D.
  - exists b. split; [reflexivity|tauto].
  - exfalso. destruct D as [D _]. rewrite <- abs_IZR in D. apply IZR_lt in H. assert (bpow radix2 20 <= bpow radix2 1024)%R as B by (apply bpow_le; lia).
    change (bpow radix2 20) with (IZR 1048576) in B. lra.
Qed.
(** The text of a float that is not an integer, or less than a million, denotes exactly this float. *)
Theorem C86_exact_partial : forall a, recoverable (Text.Finite a) -> exact_text (show_arf (Text.Finite a)) (arf2R a).
Proof.
  intros a R. cbn [recoverable] in R. cbn [show_arf]. destruct (Z.eqb_spec (am a) 0) as [Z0|N].
  - replace (arf2R a) with (IZR 0) by (unfold arf2R; rewrite Z0; ring). apply exact_int. exact (C79_get_str 10 0 ltac:(lia)).
  - destruct (0 <=? arf_exponent a) eqn:I.
    + apply (integer_exponent a N) in I. specialize (R I). destruct I as [k K]. rewrite K, <- abs_IZR in R. apply lt_IZR in R.
      destruct (small_integer_double a k K R) as (b & -> & B). rewrite K. apply exact_int. exact (C86_double_integer b k B R).
    + rewrite arf_mantissa_exponent. apply (exact_binary (show_double (arf_get_d a))).
      * apply (all_without number_char); [reflexivity|apply show_double_all].
      * apply C79_get_str. lia.
      * apply C79_get_str. lia.
Qed.
(** Hence different floats have different texts. *)
Theorem C86_injective_partial : forall x y, recoverable x -> recoverable y -> show_arf x = show_arf y -> same_float x y.
Proof.
  assert (F : forall a s, show_arf (Text.Finite a) = s -> all_chars float_char s = true) by (intros a s <-; apply show_finite_all).
  intros [a| | |] [b| | |] Rx Ry E; cbn [same_float]; try exact Logic.I; try discriminate E; try (apply F in E; discriminate E); try (symmetry in E; apply F in E; discriminate E).
  pose proof (C86_exact_partial a Rx) as A. rewrite E in A. exact (exact_unique _ _ _ A (C86_exact_partial b Ry)).
Qed.
(** All floats that are written as finite doubles: the text starts with six digits of the nearest double. *)
Theorem C86_approximation : forall a, nearest_double (arf2R a) <> 0%R -> (Rabs (nearest_double (arf2R a)) < bpow radix2 1024)%R ->
  exists t r u, show_arf (Text.Finite a) = (t ++ r)%string /\ decimal_text t u /\ six_digits_of (nearest_double (arf2R a)) u.
Proof.
  intros a N L. cbn [show_arf]. assert (am a <> 0) as A. { intros Z0. apply N. assert (arf2R a = 0%R) as -> by (unfold arf2R; rewrite Z0; ring). apply round_0. exact _. }
  destruct (Z.eqb_spec (am a) 0) as [|_]; [contradiction|]. pose proof (C82_float a) as D. destruct (arf_get_d a) as [b|s]; cbn [ieee_nearest] in D; [|lra]. destruct D as [D _].
  rewrite <- D in *. destruct (C86_double b N) as (u & T & S). destruct (0 <=? arf_exponent a).
  - exists (show_double (DFin b)), EmptyString, u. split; [|split; assumption]. clear. induction (show_double (DFin b)) as [|c s IH]; cbn; [reflexivity|]. rewrite <- IH. reflexivity.
  - eexists (show_double (DFin b)), _, u. split; [reflexivity|split; assumption].
Qed.
(** The documentation says that large numbers are written exactly, too.  They are not: different integers have the same text. *)
Theorem C86_large_refuted : exists a b, (1000000 <= arf2R a)%R /\ arf2R a <> arf2R b /\ show_arf (Text.Finite a) = show_arf (Text.Finite b).
Proof.
  exists (mkArf 1000000 0), (mkArf 1000001 0). unfold arf2R; cbn [am ae]. change (bpow radix2 0) with 1%R. split; [lra|]. split; [lra|]. vm_compute. reflexivity.
Qed.
(** ... and no number can be recovered from the text of 2^100. *)
Theorem C86_no_exact_refuted : forall v, ~ exact_text (show_arf (Text.Finite (mkArf 1 100))) v.
Proof.
  intros v H. assert (E : show_arf (Text.Finite (mkArf 1 100)) = "1.26765e+30"%string) by (vm_compute; reflexivity). rewrite E in H. inversion H as [s n I E1|t m M e E0 T I J E1]; subst.
  - apply (integer_without "."%char) in I; [|reflexivity|discriminate]. cbn in I. tauto.
  - assert (W : without "=" "1.26765e+30") by (repeat split; discriminate). rewrite <- E1 in W. exact (split_other "=" _ _ _ W eq_refl).
Qed.
(** The examples of the documentation (exact-real/arf.hpp:134, 150, 159, 282, 291, 342). *)
Example C86_documented :
  show_arf (Text.Finite (mkArf 2748 (-8))) = "10.7344=687p-6"%string /\ show_arf (Text.Finite (mkArf 2748 0)) = "2748"%string /\
  show_arf (Text.Finite (mkArf 5404319552844595 (-54))) = "0.3=5404319552844595p-54"%string /\ show_arf (Text.Finite (mkArf (-1) (-8))) = "-0.00390625=-1p-8"%string /\
  show_arf (Text.Finite (mkArf (-1) 8)) = "-256"%string /\ show_arf (Text.Finite (mkArf 1 (-16))) = "1.52588e-05=1p-16"%string.
Proof. vm_compute. repeat split; reflexivity. Qed.
Example C86_case : recoverable (Text.Finite (mkArf 1 (-16))) /\ recoverable (Text.Finite (mkArf 3 4)) /\ recoverable NaN.
Proof.
  split; [|split; [|exact Logic.I]]; intros _; unfold arf2R; cbn [am ae].
  - change (bpow radix2 (-16)) with (/ IZR 65536)%R. rewrite Rabs_pos_eq; lra.
  - change (bpow radix2 4) with 16%R. rewrite Rabs_pos_eq; lra.
Qed.

(** * C87: real numbers *)
(** Rational numbers are written exactly. *)
Theorem C87_rational : forall rng fuel q s, show_num rng fuel (RRat q) = Some s -> rational_text s (Q2R q).
Proof.
  intros rng fuel [n d] s [= <-]. unfold save_mpq, Q2R. cbn [Qnum Qden]. destruct (Pos.eqb_spec d 1) as [->|N].
  - replace (IZR n * / IZR 1)%R with (IZR n) by field. apply rational_int. apply C79_get_str. lia.
  - apply rational_frac; [apply C79_get_str; lia|apply C79_get_str; lia|discriminate].
Qed.
(** The decimal text of a real number is right to six digits, for numbers that are not too large or small for a double. *)
Theorem C87_digits : forall rng fuel x v d, num_ok rng x -> num_value rng x v -> (bpow radix2 (-1000) <= Rabs v <= bpow radix2 1000)%R -> num_get_d rng fuel x = Some d ->
  exists u, decimal_text (show_double d) u /\ (Rabs (u - v) <= 6 / 1000000 * Rabs v)%R.
Proof.
  intros rng fuel x v d Hx Hv [L U] Hd. destruct (C82_number rng fuel x v d Hx Hv Hd) as (a & A & D). set (eps := bpow radix2 (-53)) in *.
  assert (E : (0 < eps <= / 1000000000)%R). { unfold eps. split; [apply bpow_gt_0|]. apply Rle_trans with (bpow radix2 (-30)); [apply bpow_le; lia|]. change (bpow radix2 (-30)) with (/ IZR 1073741824)%R. apply Rinv_le; lra. }
  assert (B1 : (0 < bpow radix2 (-1000))%R) by apply bpow_gt_0.
  assert (TA : (Rabs a <= Rabs v + Rabs a * eps)%R). { replace a with (v + - (v - a))%R at 1 by ring. eapply Rle_trans; [apply Rabs_triang|]. rewrite Rabs_Ropp. lra. }
  assert (TV : (Rabs v <= Rabs a + Rabs a * eps)%R). { replace v with (a + (v - a))%R at 1 by ring. eapply Rle_trans; [apply Rabs_triang|]. lra. }
  pose proof (Rabs_pos a) as Pa.
  assert (Ea : (Rabs a * eps <= Rabs a * / 1000000000)%R) by (apply Rmult_le_compat_l; lra).
  assert (La : (bpow radix2 (-1001) <= Rabs a)%R) by (change (-1001)%Z with (-1 + -1000)%Z; rewrite bpow_plus; change (bpow radix2 (-1)) with (/ 2)%R; lra).
  assert (Ua : (Rabs a <= bpow radix2 1001)%R) by (change 1001%Z with (1 + 1000)%Z; rewrite bpow_plus; change (bpow radix2 1) with 2%R; lra).
  assert (N : (Rabs (nearest_double a - a) <= eps * Rabs a)%R).
  { unfold nearest_double, eps. pose proof (Relative.relative_error_N_FLT radix2 (-1074) 53 (eq_refl _) (fun z => negb (Z.even z)) a) as R. cbv beta in R.
    assert (Q : (bpow radix2 (-1074 + 53 - 1) <= Rabs a)%R) by (eapply Rle_trans; [|exact La]; apply bpow_le; lia). specialize (R Q).
    replace (/ 2 * bpow radix2 (- (53) + 1))%R with (bpow radix2 (-53)) in R by (change (- (53) + 1)%Z with (1 + -53)%Z; rewrite bpow_plus; change (bpow radix2 1) with 2%R; lra). exact R. }
  assert (NU : (Rabs (nearest_double a) <= Rabs a + eps * Rabs a)%R). { replace (nearest_double a) with (a + (nearest_double a - a))%R at 1 by ring. eapply Rle_trans; [apply Rabs_triang|]. lra. }
  assert (NL : (Rabs a <= Rabs (nearest_double a) + eps * Rabs a)%R). { replace a with (nearest_double a + - (nearest_double a - a))%R at 1 by ring. eapply Rle_trans; [apply Rabs_triang|]. rewrite Rabs_Ropp. lra. }
  assert (Pla : (0 < Rabs a)%R) by (eapply Rlt_le_trans; [apply bpow_gt_0|exact La]).
  destruct d as [b|s]; cbn [ieee_nearest] in D.
  - destruct D as [D _]. assert (Nz : arf2R b <> 0%R). { rewrite D. intros Z0. rewrite Z0, Rabs_R0 in NL. lra. }
    destruct (C86_double b Nz) as (u & T & X & Dg & [X1 X2] & Eu & Nu). exists u. split; [exact T|]. rewrite D in *.
    assert (P5 : (powerRZ 10 (X - 5) = powerRZ 10 X / 100000)%R). { pose proof (div_pow10 (powerRZ 10 X) 5) as Q. rewrite <- pow10_add, <- (IZR_pow10 5) in Q by lia. exact (eq_sym Q). }
    rewrite P5 in Nu. replace (u - v)%R with ((u - nearest_double a) + (nearest_double a - a) - (v - a))%R by ring.
    eapply Rle_trans; [apply Rabs_triang|]. rewrite Rabs_Ropp. eapply Rle_trans; [apply Rplus_le_compat_r, Rabs_triang|]. lra.
  - exfalso. destruct D as [D _]. assert (bpow radix2 1002 <= bpow radix2 1024)%R as B by (apply bpow_le; lia). change 1002%Z with (1 + 1001)%Z in B. rewrite bpow_plus in B. change (bpow radix2 1) with 2%R in B. pose proof (bpow_gt_0 radix2 1001). lra.
Qed.
Theorem C87_random : forall rng fuel seed v s, num_ok rng (RAtom (ARandom seed)) -> stream_value (rng seed) v -> (bpow radix2 (-1000) <= v)%R -> show_num rng fuel (RAtom (ARandom seed)) = Some s ->
  exists t u, s = ("ℝ(" ++ t ++ "…)")%string /\ decimal_text t u /\ (Rabs (u - v) <= 6 / 1000000 * v)%R.
Proof.
  intros rng fuel seed v s Hx Hv L H. cbn [show_num show_atom] in H. unfold show_random in H. destruct (num_get_d rng fuel (RAtom (ARandom seed))) as [d|] eqn:D; [|discriminate]. injection H as <-.
  assert (P : (0 < v)%R) by (eapply Rlt_le_trans; [apply bpow_gt_0|exact L]). assert (V : (bpow radix2 (-1000) <= Rabs v <= bpow radix2 1000)%R).
  { rewrite Rabs_pos_eq by lra. split; [exact L|]. pose proof (Hv 0%nat) as [_ B]. cbn in B. assert (1 <= bpow radix2 1000)%R by (change 1%R with (bpow radix2 0); apply bpow_le; lia). lra. }
  destruct (C87_digits rng fuel _ v d Hx Hv V D) as (u & T & N). rewrite (Rabs_pos_eq v) in N by lra. exists (show_double d), u. split; [reflexivity|split; assumption].
Qed.

Lemma stream_positive s y : nonzero_stream s -> stream_value s y -> (0 < y)%R.
Proof.
  intros [i Hi] Hy. destruct (Hy (S i)) as [L _]. assert (P : (0 <= prefix s i)%Z). { clear. induction i as [|i IH]; cbn [prefix]; [lia|]. destruct (s i); lia. }
  cbn [prefix] in L. rewrite Hi in L. assert (1 <= IZR (2 * prefix s i + 1))%R by (apply IZR_le; lia). pose proof (bpow_gt_0 radix2 (Z.of_nat (S i))).
  destruct (Rle_lt_dec y 0) as [N|]; [|assumption]. assert (y * bpow radix2 (Z.of_nat (S i)) <= 0 * bpow radix2 (Z.of_nat (S i)))%R by (apply Rmult_le_compat_r; lra). lra.
Qed.
(** Numbers from an interval: the text names a float, a random number and an exponent, and determines them (up to the digits that are written). *)
Theorem C87_constrained_text : forall rng fuel i e seed s, show_num rng fuel (RAtom (AConstr i e seed)) = Some s -> exists inner d,
  show_num rng fuel (RAtom (ARandom seed)) = Some inner /\ num_get_d rng fuel (RAtom (AConstr i e seed)) = Some d /\
  s = ("ℝ(" ++ show_arf (Text.Finite i) ++ " + " ++ inner ++ "p" ++ get_str 10 e ++ ")" ++ (if double_eqb (arf_get_d i) d then "" else "[∼" ++ show_double d ++ "]"))%string.
Proof.
  intros rng fuel i e seed s H. cbn [show_num show_atom] in *. unfold show_constrained in H. destruct (show_random rng fuel seed) as [inner|]; [|discriminate]. destruct (num_get_d rng fuel (RAtom (AConstr i e seed))) as [d|]; [|discriminate].
  injection H as <-. exists inner, d. split; [reflexivity|split; reflexivity].
Qed.
Definition random_char (c : ascii) : bool := negb (Ascii.eqb c "p").
Lemma show_random_all rng fuel seed inner : show_random rng fuel seed = Some inner -> without "p" inner.
Proof.
  unfold show_random. destruct (num_get_d rng fuel (RAtom (ARandom seed))) as [d|]; [|discriminate]. intros [= <-]. apply (all_without random_char); [reflexivity|]. change (all_chars random_char ("ℝ(" ++ show_double d ++ "…)") = true). rewrite !all_app.
  rewrite (weaken number_char random_char (show_double d)); [reflexivity| |apply show_double_all]. intros c Hc. unfold random_char. apply negb_true_iff, Ascii.eqb_neq. intros ->. discriminate Hc.
Qed.
Theorem C87_constrained_determines : forall rng fuel i e seed fuel' i' e' seed' s,
  show_num rng fuel (RAtom (AConstr i e seed)) = Some s -> show_num rng fuel' (RAtom (AConstr i' e' seed')) = Some s -> recoverable (Text.Finite i) -> recoverable (Text.Finite i') ->
  arf2R i = arf2R i' /\ e = e' /\ show_num rng fuel (RAtom (ARandom seed)) = show_num rng fuel' (RAtom (ARandom seed')).
Proof.
  intros rng fuel i e seed fuel' i' e' seed' s H H' R R'. apply C87_constrained_text in H, H'. destruct H as (n & d & N & _ & E), H' as (n' & d' & N' & _ & E'). rewrite E in E'. clear E.
  apply (f_equal (fun t => match t with String _ (String _ (String _ (String _ t'))) => t' | _ => t end)) in E'. cbn [append] in E'.
  assert (W : forall a, without " " (show_arf (Text.Finite a))) by (intros a; apply (all_without float_char); [reflexivity|apply show_finite_all]).
  apply split_same in E'; [|apply W..]. destruct E' as [A E']. injection E' as E'.
  cbn [show_num show_atom] in N, N'. apply split_same in E'; [|exact (show_random_all _ _ _ _ N)|exact (show_random_all _ _ _ _ N')]. destruct E' as [B E'].
  assert (V : forall k, without ")" (get_str 10 k)) by (intros k; apply (all_without number_char); [reflexivity|apply get_str_all]). apply split_same in E'; [|apply V..]. destruct E' as [C _].
  split; [exact (C86_injective_partial _ _ R R' A)|]. split; [|cbn [show_num show_atom]; congruence]. pose proof (C79_get_str 10 e ltac:(lia)) as G. rewrite C in G. exact (integer_unique _ _ _ G (C79_get_str 10 e' ltac:(lia))).
Qed.
(** But read as a formula, ℝ(i + ℝ(w…)pe) is wrong for every such number: its value is not i + w * 2^e ... *)
Theorem C87_constrained_refuted : forall rng i e seed v w, num_ok rng (RAtom (AConstr i e seed)) -> num_value rng (RAtom (AConstr i e seed)) v -> num_value rng (RAtom (ARandom seed)) w ->
  v <> (arf2R i + w * bpow radix2 e)%R.
Proof.
  intros rng i e seed v w [Nz _] (y & Hy & ->) Hw E. cbn [num_value atom_value] in Hw. assert (y = w) as -> by (exact (stream_value_unique _ _ _ Hy Hw)). pose proof (stream_positive _ _ Nz Hw) as P.
  replace e with (1 + (e - 1)) in E at 2 by lia. rewrite bpow_plus in E. change (bpow radix2 1) with 2%R in E. pose proof (bpow_gt_0 radix2 (e - 1)). assert (0 < w * bpow radix2 (e - 1))%R by (apply Rmult_lt_0_compat; assumption). lra.
Qed.
(** ... but i + w * 2^(e - 1). *)
Theorem C87_constrained_partial : forall rng i e seed v w, num_value rng (RAtom (AConstr i e seed)) v -> num_value rng (RAtom (ARandom seed)) w -> v = (arf2R i + w * bpow radix2 (e - 1))%R.
Proof. intros rng i e seed v w (y & Hy & ->) Hw. rewrite (stream_value_unique _ _ _ Hy Hw). reflexivity. Qed.
(** The text contradicts itself: 0.5 + 0.518976 * 2^-1 is not about 0.629744. *)
Example C87_constrained_case : show_num rand48 100 (RAtom (AConstr (mkArf 1 (-1)) (-1) 42)) = Some "ℝ(0.5=1p-1 + ℝ(0.518976…)p-1)[∼0.629744]"%string.
Proof. c48. Qed.
(** Different random numbers may have the same text, among the first 1200 that a process makes. *)
Theorem C87_collision_refuted : exists s t v w, 1337 <= s < 2537 /\ 1337 <= t < 2537 /\ num_value rand48 (RAtom (ARandom s)) v /\ num_value rand48 (RAtom (ARandom t)) w /\ v <> w /\
  show_num rand48 100 (RAtom (ARandom s)) = show_num rand48 100 (RAtom (ARandom t)) /\ show_num rand48 100 (RAtom (ARandom s)) = Some "ℝ(0.7873…)"%string.
Proof.
  destruct (stream_value_exists (rand48 1743)) as [v V]. destruct (stream_value_exists (rand48 2512)) as [w W]. exists 1743, 2512, v, w. split; [lia|]. split; [lia|]. split; [exact V|]. split; [exact W|].
  split; [|split; c48]. intros <-. specialize (V 40%nat). specialize (W 40%nat).
  assert (P : (prefix (rand48 1743) 40 + 1 <? prefix (rand48 2512) 40) || (prefix (rand48 2512) 40 + 1 <? prefix (rand48 1743) 40) = true) by (c48).
  apply orb_true_iff in P. destruct P as [P|P]; apply Z.ltb_lt in P; apply IZR_lt in P; rewrite plus_IZR in P; lra.
Qed.
(** Texts from the documentation (pyexactreal/src/pyexactreal/__init__.py:9, 15, 21, 28): the seeds of a process start with 1337. *)
Example C87_documented :
  show_num rand48 100 (RAtom (ARandom 1337)) = Some "ℝ(0.303644…)"%string /\
  show_module rand48 100 "ℤ" [RRat 1; RAtom (ARandom 1338)] = Some "ℤ-Module(1, ℝ(0.120809…))"%string /\
  show_module rand48 100 "ℚ" [RRat 1; RAtom (AConstr (mkArf 9223372036854776177 (-63)) (-64) 1339)] = Some "ℚ-Module(1, ℝ(1=9223372036854776177p-63 + ℝ(0.178808…)p-64))"%string /\
  show_module rand48 100 "K" [RRat 1; RAtom (ARandom 1340)] = Some "K-Module(1, ℝ(0.478968…))"%string.
Proof. rewrite rand48_fast. vm_compute. repeat split; reflexivity. Qed.

(** * C88: products and modules *)
Definition plain_char (c : ascii) : bool := negb (Ascii.eqb c "*" || Ascii.eqb c "^" || Ascii.eqb c ",").
Lemma float_plain c : float_char c = true -> plain_char c = true.
Proof.
  intros H. unfold plain_char. apply negb_true_iff. destruct (Ascii.eqb_spec c "*") as [->|]; [discriminate H|]. destruct (Ascii.eqb_spec c "^") as [->|]; [discriminate H|]. destruct (Ascii.eqb_spec c ",") as [->|]; [discriminate H|]. reflexivity.
Qed.
Lemma number_plain c : number_char c = true -> plain_char c = true.
Proof. intros H. apply float_plain, number_float, H. Qed.
Lemma show_random_plain rng fuel seed s : show_random rng fuel seed = Some s -> all_chars plain_char s = true /\ s <> EmptyString.
Proof.
  unfold show_random. destruct (num_get_d rng fuel (RAtom (ARandom seed))) as [d|]; [|discriminate]. intros H. injection H as <-. split; [|discriminate].
  change (all_chars plain_char ("ℝ(" ++ show_double d ++ "…)") = true). rewrite !all_app, (weaken number_char plain_char (show_double d) number_plain (show_double_all d)). reflexivity.
Qed.
Lemma show_atom_plain rng fuel a s : show_atom rng fuel a = Some s -> all_chars plain_char s = true /\ s <> EmptyString.
Proof.
  destruct a as [seed|i e seed]; [apply show_random_plain|]. intros H. apply (C87_constrained_text rng fuel i e seed s) in H. destruct H as (inner & d & N & _ & ->). split; [|discriminate].
  cbn [show_num show_atom] in N. apply show_random_plain in N. rewrite !all_app, (proj1 N), (weaken float_char plain_char _ float_plain (show_finite_all i)), (weaken number_char plain_char _ number_plain (get_str_all e)).
  destruct (double_eqb (arf_get_d i) d); [reflexivity|]. rewrite !all_app, (weaken number_char plain_char _ number_plain (show_double_all d)). reflexivity.
Qed.
Lemma append_empty s : (s ++ "")%string = s.
Proof. induction s as [|c s IH]; cbn; [reflexivity|]. rewrite IH. reflexivity. Qed.
Lemma append_cancel r : forall a b, (r ++ a = r ++ b)%string -> a = b.
Proof. induction r as [|x r IHr]; intros a b E; [exact E|]. cbn in E. injection E as E. exact (IHr _ _ E). Qed.
(** Joined texts can be split again. *)
Lemma join_injective c r : forall l l', Forall (fun t => without c t /\ t <> EmptyString) l -> Forall (fun t => without c t /\ t <> EmptyString) l' -> join (String c r) l = join (String c r) l' -> l = l'.
Proof.
  induction l as [|t l IH]; intros l' Hl Hl' E.
  - destruct l' as [|t' l']; [reflexivity|exfalso]. inversion Hl' as [|? ? [_ N] _]; subst. destruct l'; cbn [join] in E; [congruence|]. destruct t'; [congruence|discriminate E].
  - inversion Hl as [|? ? [W N] Hl2]; subst. destruct l' as [|t' l'].
    + exfalso. destruct l; cbn [join] in E; [congruence|]. destruct t; [congruence|discriminate E].
    + inversion Hl' as [|? ? [W' N'] Hl2']; subst. destruct l as [|t2 l], l' as [|t2' l'].
      * cbn [join] in E. congruence.
      * exfalso. change (join (String c r) [t]) with t in E. change (join (String c r) (t' :: t2' :: l')) with (t' ++ String c (r ++ join (String c r) (t2' :: l')))%string in E. exact (split_other c _ _ _ W E).
      * exfalso. change (join (String c r) [t']) with t' in E. change (join (String c r) (t :: t2 :: l)) with (t ++ String c (r ++ join (String c r) (t2 :: l)))%string in E. exact (split_other c _ _ _ W' (eq_sym E)).
      * change (join (String c r) (t' :: t2' :: l')) with (t' ++ String c (r ++ join (String c r) (t2' :: l')))%string in E. change (join (String c r) (t :: t2 :: l)) with (t ++ String c (r ++ join (String c r) (t2 :: l)))%string in E.
        apply split_same in E; [|assumption..]. destruct E as [-> E]. f_equal. apply IH; [assumption..|]. exact (append_cancel r _ _ E).
Qed.
Lemma show_product_join rng fuel ms : forall s, show_product rng fuel ms = Some s -> exists ts, Forall2 (fun '(a, k) t => show_atom rng fuel a = Some t) ms ts /\ s = join "*" (map (fun '((a, k), t) => show_factor t k) (combine ms ts)).
Proof.
  induction ms as [|[a k] ms IH]; intros s H; cbn [show_product] in H.
  - injection H as <-. exists []. split; [constructor|reflexivity].
  - destruct (show_atom rng fuel a) as [t|] eqn:A; [|discriminate]. destruct (show_product rng fuel ms) as [s'|] eqn:P; [|discriminate]. injection H as <-.
    destruct (IH s' eq_refl) as (ts & F & ->). exists (t :: ts). split; [constructor; [exact A|exact F]|]. destruct ms as [|[b j] ms].
    + inversion F. subst. cbn [combine map join]. apply append_empty.
    + inversion F as [|? t2 ? ts2]; subst. reflexivity.
Qed.
Lemma show_factor_without rng fuel a t k : show_atom rng fuel a = Some t -> without "*" (show_factor t k) /\ show_factor t k <> EmptyString.
Proof.
  intros H. destruct (show_atom_plain _ _ _ _ H) as [P N]. unfold show_factor. split.
  - apply (all_without (fun c => negb (Ascii.eqb c "*"))); [reflexivity|]. rewrite all_app. apply andb_true_iff. split.
    + apply (weaken plain_char); [|exact P]. intros c. unfold plain_char. destruct (Ascii.eqb c "*"); [discriminate|reflexivity].
    + destruct (k =? 1)%nat; [reflexivity|]. rewrite all_app. apply andb_true_iff. split; [reflexivity|]. apply (weaken number_char); [|apply get_str_all]. intros c Hc. apply number_plain in Hc. unfold plain_char in Hc. destruct (Ascii.eqb c "*"); [discriminate|reflexivity].
  - destruct t; [congruence|discriminate].
Qed.
Lemma show_factor_injective rng rng' fuel fuel' a b t u k l : show_atom rng fuel a = Some t -> show_atom rng' fuel' b = Some u -> show_factor t k = show_factor u l -> t = u /\ k = l.
Proof.
  intros H K E. apply show_atom_plain in H, K. assert (W : without "^" t) by (apply (all_without plain_char); [reflexivity|tauto]). assert (W' : without "^" u) by (apply (all_without plain_char); [reflexivity|tauto]).
  unfold show_factor in E. destruct (Nat.eqb_spec k 1) as [->|Nk], (Nat.eqb_spec l 1) as [->|Nl]; rewrite ?append_empty in E.
  - split; [exact E|reflexivity].
  - exfalso. exact (split_other "^" _ _ _ W E).
  - exfalso. exact (split_other "^" _ _ _ W' (eq_sym E)).
  - apply split_same in E; [|assumption..]. destruct E as [-> E]. split; [reflexivity|]. pose proof (C79_get_str 10 (Z.of_nat k) ltac:(lia)) as G. rewrite E in G. pose proof (integer_unique _ _ _ G (C79_get_str 10 (Z.of_nat l) ltac:(lia))). lia.
Qed.
(** Products with the same text have factors with the same texts and exponents, in the same order. *)
Theorem C88_product : forall rng fuel fuel' ms ns s, show_num rng fuel (RProd ms) = Some s -> show_num rng fuel' (RProd ns) = Some s ->
  Forall2 (fun '(a, k) '(b, l) => show_num rng fuel (RAtom a) = show_num rng fuel' (RAtom b) /\ k = l) ms ns.
Proof.
  intros rng fuel fuel' ms ns s H K. cbn [show_num] in *. apply show_product_join in H, K. destruct H as (ts & F & E), K as (us & G & E'). rewrite E in E'. clear E s. apply join_injective in E'.
  - revert ns us G E'. induction F as [|[a k] t ms ts A F IH]; intros ns us G E'.
    + inversion G; subst; [constructor|discriminate E'].
    + inversion G as [|[b l] u ns' us' B G']; subst; [discriminate E'|]. cbn [combine map] in E'. injection E' as E1 E2. constructor; [|exact (IH _ _ G' E2)].
      destruct (show_factor_injective _ _ _ _ _ _ _ _ _ _ A B E1) as [-> ->]. split; congruence.
  - clear -F. induction F as [|[a k] t ms ts A F IH]; constructor; [exact (show_factor_without _ _ _ _ k A)|exact IH].
  - clear -G. induction G as [|[a k] t ms ts A F IH]; constructor; [exact (show_factor_without _ _ _ _ k A)|exact IH].
Qed.
Lemma show_num_comma rng fuel x s : show_num rng fuel x = Some s -> (forall ms, x = RProd ms -> ms <> []) -> without "," s /\ s <> EmptyString.
Proof.
  intros H Np. destruct x as [q|a|ms].
  - injection H as <-. unfold save_mpq. assert (W : forall n, without "," (get_str 10 n)) by (intros n; apply (all_without number_char); [reflexivity|apply get_str_all]).
    assert (NE : forall n, get_str 10 n <> EmptyString) by (intros n E; pose proof (C79_get_str 10 n ltac:(lia)) as G; rewrite E in G; inversion G; congruence).
    destruct (Qden q =? 1)%positive; [split; [apply W|apply NE]|]. split; [|destruct (get_str 10 (Qnum q)) eqn:E; [exfalso; exact (NE _ E)|discriminate]].
    apply (all_without (fun c => negb (Ascii.eqb c ","))); [reflexivity|]. rewrite all_app. cbn [all_chars].
    assert (NC : forall c, number_char c = true -> negb (Ascii.eqb c ",") = true) by (intros c Hc; destruct (Ascii.eqb_spec c ",") as [->|]; [discriminate Hc|reflexivity]).
    rewrite !(weaken number_char (fun c => negb (Ascii.eqb c ",")) _ NC (get_str_all _)). reflexivity.
  - apply show_atom_plain in H. split; [|tauto]. apply (all_without plain_char); [reflexivity|tauto].
  - specialize (Np ms eq_refl). cbn [show_num] in H. apply show_product_join in H. destruct H as (ts & F & ->).
    destruct F as [|[a k] t ms ts A F]; [congruence|]. clear Np.
    assert (Q : forall a k t, show_atom rng fuel a = Some t -> all_chars (fun c => negb (Ascii.eqb c ",")) (show_factor t k) = true /\ show_factor t k <> EmptyString).
    { clear. intros a k t A. destruct (show_atom_plain _ _ _ _ A) as [P N]. unfold show_factor. split; [|destruct t; [congruence|discriminate]]. rewrite all_app. apply andb_true_iff. split.
      - apply (weaken plain_char); [|exact P]. intros c. unfold plain_char. destruct (Ascii.eqb c "*"), (Ascii.eqb c "^"), (Ascii.eqb c ","); intros; try discriminate; reflexivity.
      - destruct (k =? 1)%nat; [reflexivity|]. rewrite all_app. apply andb_true_iff. split; [reflexivity|]. apply (weaken number_char); [|apply get_str_all]. intros c Hc. destruct (Ascii.eqb_spec c ",") as [->|]; [discriminate Hc|reflexivity]. }
    revert a k t A. induction F as [|[b j] u ms ts B F IH]; intros a k t A; destruct (Q a k t A) as [Q1 Q2].
    + cbn [combine map join]. split; [apply (all_without (fun c => negb (Ascii.eqb c ","))); [reflexivity|exact Q1]|exact Q2].
    + specialize (IH b j u B). destruct IH as [I1 I2]. cbn [combine map join]. cbn [combine map] in I1. split.
      * clear -Q1 I1. revert Q1. induction (show_factor t k) as [|c s IHs]; cbn [append all_chars without]; intros Q1.
        -- split; [discriminate|exact I1].
        -- apply andb_true_iff in Q1. destruct Q1 as [C Q1]. split; [|exact (IHs Q1)]. intros <-. discriminate C.
      * destruct (show_factor t k); [congruence|discriminate].
Qed.
(** Modules with the same text have the same ring (as far as it is written) and generators with the same texts, in the same order. *)
Theorem C88_module : forall rng fuel fuel' p p' basis basis' s, without "-" p -> without "-" p' ->
  (forall ms, In (RProd ms) basis \/ In (RProd ms) basis' -> ms <> []) ->
  show_module rng fuel p basis = Some s -> show_module rng fuel' p' basis' = Some s ->
  p = p' /\ map (show_num rng fuel) basis = map (show_num rng fuel') basis'.
Proof.
  intros rng fuel fuel' p p' basis basis' s W W' Np H K. unfold show_module in H, K.
  assert (T : forall f b ts, (forall ms, In (RProd ms) b -> ms <> []) -> fold_right (fun x acc => match show_num rng f x, acc with Some t, Some ts => Some (t :: ts) | _, _ => None end) (Some []) b = Some ts ->
    map (show_num rng f) b = map Some ts /\ Forall (fun t => without "," t /\ t <> EmptyString) ts).
  { clear. intros f b. induction b as [|x b IH]; intros ts Np H; cbn [fold_right] in H; [injection H as <-; split; constructor|].
    destruct (show_num rng f x) as [t|] eqn:X; [|discriminate]. destruct (fold_right _ _ b) as [us|] eqn:B; [|discriminate]. injection H as <-.
    destruct (IH us (fun ms I => Np ms (or_intror I)) eq_refl) as [I1 I2]. split; [cbn [map]; rewrite X, I1; reflexivity|]. constructor; [|exact I2]. apply (show_num_comma rng f x t X). intros ms ->. apply Np. left. reflexivity. }
  destruct (fold_right _ _ basis) as [ts|] eqn:B; [|discriminate]. destruct (fold_right _ _ basis') as [us|] eqn:B'; [|discriminate].
  cbn [option_map] in H, K. injection H as E. injection K as E'. apply T in B; [|intros ms I; apply Np; left; exact I]. apply T in B'; [|intros ms I; apply Np; right; exact I].
  destruct B as [B1 B2], B' as [B1' B2']. rewrite <- E' in E. apply split_same in E; [|assumption..]. destruct E as [-> E]. split; [reflexivity|].
  apply (f_equal (fun t => match t with String _ (String _ (String _ (String _ (String _ (String _ (String _ t')))))) => t' | _ => t end)) in E.
  assert (L : forall a b c, (a ++ String c "" = b ++ String c "")%string -> a = b).
  { clear. intros a. induction a as [|x a IH]; intros [|y b] c E; [reflexivity| | |].
    - cbn in E. injection E as -> E. destruct b; discriminate E.
    - cbn in E. injection E as -> E. destruct a; discriminate E.
    - cbn in E. injection E as -> E. f_equal. exact (IH _ _ E). }
  apply L in E. change ", "%string with (String "," " ") in E. apply join_injective in E; [|assumption..]. rewrite B1, B1', E. reflexivity.
Qed.
Example C88_case : show_num rand48 100 (RProd [(ARandom 3, 1%nat); (ARandom 4, 2%nat)]) = Some "ℝ(0.784381…)*ℝ(0.871132…)^2"%string /\
  show_module rand48 100 "ℚ" [RRat (1 # 2); RProd [(ARandom 3, 1%nat); (ARandom 4, 2%nat)]] = Some "ℚ-Module(1/2, ℝ(0.784381…)*ℝ(0.871132…)^2)"%string /\
  without "-" "ℤ" /\ without "-" "ℚ" /\ without "-" "K".
Proof. split; [vm_compute; reflexivity|]. split; [vm_compute; reflexivity|]. repeat split; discriminate. Qed.
