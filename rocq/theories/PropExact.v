(** C58 and C60 for random numbers: exactly when the ball of arb() contains the number, and exactly when the double is wrong. *)
From Coq Require Import ZArith QArith Bool List Reals Lia Lra.
From Flocq Require Import Core.
From Verif Require Import Arf Arb SpecArf ArfProofs ArbProofs Real SpecReal RealProofs RealProofs2 RealProofs3 Rand48Proofs Rand48Rational Fast48 SpecLoops.
Open Scope R_scope.

(** * The rest of a stream, as a number between 0 and 1 *)
Lemma tail_zero s y : stream_value s y -> (forall i, s i = false) -> y = 0.
Proof.
  intros H F. assert (Z0 : stream_value s 0).
  { intros n. rewrite (prefix_ext_zero s n) by (intros; apply F). lra. }
  exact (stream_value_inj s y 0 H Z0).
Qed.
Lemma tail_one s y : stream_value s y -> (forall i, s i = true) -> y = 1.
Proof.
  intros H F. assert (E : stream_value (fun i => negb (s i)) (1 - y)) by (apply stream_value_negb, H).
  assert (K : 1 - y = 0); [apply (tail_zero _ _ E); intros i; rewrite F; reflexivity|lra].
Qed.
Lemma tail_positive s y i : stream_value s y -> s i = true -> 0 < y.
Proof. intros H F. apply (stream_value_pos s y); [exists i; exact F|exact H]. Qed.
Lemma tail_below s y i : stream_value s y -> s i = false -> y < 1.
Proof.
  intros H F. assert (E : stream_value (fun i => negb (s i)) (1 - y)) by (apply stream_value_negb, H).
  assert (0 < 1 - y); [|lra]. apply (tail_positive _ _ i E). cbn. rewrite F. reflexivity.
Qed.
(** The digits after the [N]-th: y * 2^N = prefix + u. *)
Lemma split_digits s y N : stream_value s y -> exists u, stream_value (fun i => s (N + i)%nat) u /\ y = (IZR (prefix s N) + u) * bpow radix2 (- Z.of_nat N).
Proof.
  intros H. exists (y * bpow radix2 (Z.of_nat N) - IZR (prefix s N)). split; [apply stream_value_tail, H|].
  replace (IZR (prefix s N) + (y * bpow radix2 (Z.of_nat N) - IZR (prefix s N))) with (y * bpow radix2 (Z.of_nat N)) by ring.
  rewrite Rmult_assoc, <- bpow_plus. replace (Z.of_nat N + - Z.of_nat N)%Z with 0%Z by ring. change (bpow radix2 0) with 1. ring.
Qed.
Lemma tail_half s u : stream_value s u -> (u <= / 2 <-> s O = false \/ forall i, (0 < i)%nat -> s i = false).
Proof.
  intros H. destruct (split_digits s u 1 H) as (w & W & E). pose proof (stream_value_range _ _ W) as B. change (- Z.of_nat 1)%Z with (-1)%Z in E. change (bpow radix2 (-1)) with (/ 2) in E.
  change (prefix s 1) with (if s O then 1 else 0)%Z in E. destruct (s O) eqn:S0.
  - split.
    + intros K. right. intros i Hi. destruct (s i) eqn:Si; [|reflexivity]. exfalso. pose proof (tail_positive _ _ (i - 1) W) as P. cbn beta in P. replace (1 + (i - 1))%nat with i in P by lia. specialize (P Si). lra.
    + intros [F|F]; [discriminate|]. assert (w = 0); [|lra]. apply (tail_zero _ _ W). intros i. apply F. lia.
  - split; [intros _; left; reflexivity|intros _; lra].
Qed.

Lemma tail_nonzero s u N : stream_value (fun i => s (N + i)%nat) u -> 0 < u -> exists i, (N <= i)%nat /\ s i = true.
Proof.
  intros H P. destruct (Classical_Prop.classic (exists i, (N <= i)%nat /\ s i = true)) as [E|E]; [exact E|exfalso].
  assert (u = 0); [|lra]. apply (tail_zero _ _ H). intros i. destruct (s (N + i)%nat) eqn:Si; [|reflexivity]. destruct E. exists (N + i)%nat. split; [apply Nat.le_add_r|exact Si].
Qed.

(** * The ball of arb() *)
(** The digit after those that arb() asks for decides: digit number z + prec + 1, where the first 1 is digit number z. *)
Theorem C58_random_exactly_partial : forall rng seed z v fuel prec b, rng seed z = true -> (forall i, (i < z)%nat -> rng seed i = false) -> num_value rng (RAtom (ARandom seed)) v ->
  (1 <= prec)%Z -> num_arb rng fuel (RAtom (ARandom seed)) prec = Some b ->
  let next := (z + Z.to_nat prec + 1)%nat in contains b v <-> rng seed next = false \/ forall i, (next < i)%nat -> rng seed i = false.
Proof.
  intros rng seed z v fuel prec b H1 H0 Hv Hp Hb next. cbn [num_value atom_value] in Hv. unfold num_arb, num_refine in Hb.
  destruct (Z.leb_spec prec (rel_accuracy_bits arb_zero_pm_inf)) as [C|_]; [exfalso; change (rel_accuracy_bits arb_zero_pm_inf) with (- ARF_PREC_EXACT)%Z in C; unfold ARF_PREC_EXACT in C; lia|].
  destruct (num_arf rng fuel (RAtom (ARandom seed)) prec) as [a|] eqn:Ea; [|discriminate]. cbn [option_map] in Hb. injection Hb as <-. cbn [num_arf] in Ea. fold (clamp prec) in Ea. rewrite clamp_pos in Ea by exact Hp. cbn [arf_atom] in Ea.
  apply (arf_random_det rng seed z prec fuel a H1 H0) in Ea. subst a. set (s := rng seed) in *.
  destruct (split_digits s v next Hv) as (u & U & E). pose proof (stream_value_range _ _ U) as B.
  pose proof (rc_range s z prec H1 H0) as R. rewrite clamp_pos in R by exact Hp.
  assert (Xa : arf_expo (random_closed s z prec) = (- Z.of_nat z)%Z).
  { rewrite arf_expo_mag; [apply rc_mag; assumption|]. pose proof (pow2_pos prec ltac:(lia)). lia. }
  assert (A : arf2R (random_closed s z prec) = IZR (prefix s next) * bpow radix2 (- Z.of_nat next)).
  { unfold arf2R, random_closed. cbn [am ae]. rewrite (clamp_pos prec Hp). f_equal; [f_equal; f_equal; unfold next; lia|f_equal; unfold next; lia]. }
  unfold contains, refine_ball. cbn [rad mid]. rewrite Xa, A, E. replace (arf2R (mkArf 1 (- Z.of_nat z - 1 - (prec + 1)))) with (bpow radix2 (- Z.of_nat next) * / 2).
  2:{ unfold arf2R. cbn [am ae]. rewrite Rmult_1_l. change (/ 2) with (bpow radix2 (-1)). rewrite <- bpow_plus. f_equal. unfold next. lia. }
  pose proof (bpow_gt_0 radix2 (- Z.of_nat next)) as Q. set (q := bpow radix2 (- Z.of_nat next)) in *.
  replace ((IZR (prefix s next) + u) * q - IZR (prefix s next) * q) with (q * u) by ring. rewrite Rabs_pos_eq by (apply Rmult_le_pos; lra).
  transitivity (u <= / 2); [split; intros K; [apply (Rmult_le_reg_l q); assumption|apply Rmult_le_compat_l; lra]|]. rewrite (tail_half _ _ U). rewrite Nat.add_0_r.
  split; (intros [K|K]; [left; exact K|right]).
  - intros i Hi. specialize (K (i - next)%nat ltac:(lia)). cbn beta in K. replace (next + (i - next))%nat with i in K by lia. exact K.
  - intros i Hi. apply K. lia.
Qed.
(** No tail of rand48 is constant. *)
Lemma rand48_tail seed n d : exists i, (n < i)%nat /\ rand48 seed i = d.
Proof.
  destruct (bool_dec (rand48 seed (S n)) d) as [E|E]; [exists (S n); split; [lia|exact E]|].
  exists (S n + 2 ^ 47)%nat. split; [apply Nat.lt_le_trans with (S n); [apply Nat.lt_succ_diag_r|apply Nat.le_add_r]|]. rewrite rand48_flip. destruct (rand48 seed (S n)), d; try reflexivity; destruct E; reflexivity.
Qed.
Theorem C58_rand48_exactly_partial : forall seed z v fuel prec b, rand48 seed z = true -> (forall i, (i < z)%nat -> rand48 seed i = false) -> num_value rand48 (RAtom (ARandom seed)) v ->
  (1 <= prec)%Z -> num_arb rand48 fuel (RAtom (ARandom seed)) prec = Some b -> (contains b v <-> rand48 seed (z + Z.to_nat prec + 1) = false).
Proof.
  intros seed z v fuel prec b H1 H0 Hv Hp Hb. rewrite (C58_random_exactly_partial rand48 seed z v fuel prec b H1 H0 Hv Hp Hb). split; [|intros K; left; exact K].
  intros [K|K]; [exact K|exfalso]. destruct (rand48_tail seed (z + Z.to_nat prec + 1) true) as (i & Hi & Ei). rewrite (K i Hi) in Ei. discriminate.
Qed.
Lemma digit_index z p k K : (0 <= p)%Z -> (0 <= k)%Z -> Z.to_nat k = K -> (z + Z.to_nat (p + k) + 1 = z + Z.to_nat p + 1 + K)%nat.
Proof. lia. Qed.
(** So for every random number the balls are wrong for half of the precisions: exactly one of the balls at prec and prec + 2^47 contains it. *)
Theorem C58_half_refuted : forall seed v fuel fuel' prec b b', num_value rand48 (RAtom (ARandom seed)) v -> (1 <= prec)%Z ->
  num_arb rand48 fuel (RAtom (ARandom seed)) prec = Some b -> num_arb rand48 fuel' (RAtom (ARandom seed)) (prec + 2 ^ 47) = Some b' -> (contains b v <-> ~ contains b' v).
Proof.
  intros seed v fuel fuel' prec b b' Hv Hp Hb Hb'. destruct (first_one _ (rand48_nonzero seed)) as (z & H1 & H0).
  rewrite (C58_rand48_exactly_partial seed z v fuel prec b H1 H0 Hv Hp Hb). rewrite (C58_rand48_exactly_partial seed z v fuel' (prec + 2 ^ 47) b' H1 H0 Hv ltac:(lia) Hb').
  replace (z + Z.to_nat (prec + 2 ^ 47) + 1)%nat with ((z + Z.to_nat prec + 1) + 2 ^ 47)%nat.
  - rewrite rand48_flip. destruct (rand48 seed (z + Z.to_nat prec + 1)); cbn [negb]; split; intros K; try congruence; try (intros K'; congruence).
  - symmetry. apply digit_index; [lia|lia|]. apply Nat2Z.inj. rewrite Nat2Z.inj_pow, Z2Nat.id by lia. reflexivity.
Qed.

(** * Conversion to double *)
Local Instance prec53 : Prec_gt_0 53. Proof. reflexivity. Qed.
(** Rounding in the binade where the distance of doubles is 2^e. *)
Lemma nearest_binade x e : bpow radix2 52 <= x <= bpow radix2 53 -> (-1074 <= e)%Z -> nearest_double (x * bpow radix2 e) = IZR (ZnearestE x) * bpow radix2 e.
Proof.
  intros [L U] He. pose proof (bpow_gt_0 radix2 e) as P. unfold nearest_double. destruct (Rle_lt_or_eq_dec _ _ U) as [U'|U'].
  - assert (M : mag radix2 (x * bpow radix2 e) = (53 + e)%Z :> Z).
    { apply mag_unique_pos. replace (53 + e - 1)%Z with (52 + e)%Z by ring. rewrite !bpow_plus. split; [apply Rmult_le_compat_r; lra|apply Rmult_lt_compat_r; lra]. }
    unfold round, scaled_mantissa, cexp, F2R. cbn [Fnum Fexp]. rewrite M. replace (FLT_exp (-1074) 53 (53 + e)) with e by (unfold FLT_exp; lia).
    rewrite Rmult_assoc, <- bpow_plus. replace (e + - e)%Z with 0%Z by ring. change (bpow radix2 0) with 1. rewrite Rmult_1_r. reflexivity.
  - rewrite U'. change (bpow radix2 53) with (IZR (2 ^ 53)). rewrite (Zrnd_IZR ZnearestE). apply round_generic; [exact _|]. change (IZR (2 ^ 53)) with (bpow radix2 53). rewrite <- bpow_plus.
    apply generic_format_bpow. unfold FLT_exp. lia.
Qed.
Lemma nearest_down m r : 0 <= r < / 2 -> ZnearestE (IZR m + r) = m.
Proof. intros H. apply Znearest_imp. replace (IZR m + r - IZR m) with r by ring. rewrite Rabs_pos_eq by lra. lra. Qed.
Lemma nearest_up m r : / 2 < r <= 1 -> ZnearestE (IZR m + r) = (m + 1)%Z.
Proof. intros H. apply Znearest_imp. rewrite plus_IZR. replace (IZR m + r - (IZR m + 1)) with (- (1 - r)) by ring. rewrite Rabs_Ropp, Rabs_pos_eq by lra. lra. Qed.
Lemma nearest_tie m : ZnearestE (IZR m + / 2) = (if Z.even m then m else m + 1)%Z.
Proof.
  unfold Znearest. assert (F : Zfloor (IZR m + / 2) = m) by (apply Zfloor_imp; rewrite plus_IZR; lra). assert (C : Zceil (IZR m + / 2) = (m + 1)%Z) by (apply Zceil_imp; rewrite minus_IZR, plus_IZR; lra).
  rewrite F, C. rewrite Rcompare_Eq by lra. destruct (Z.even m); reflexivity.
Qed.
(** The last bit of the 53, the next two, and the rest. *)
Lemma rounding_differs m (b c : bool) u : 0 <= u <= 1 ->
  (ZnearestE (IZR m + (IZR (b2z b) * 2 + IZR (b2z c) + u) / 4) <> ZnearestE (IZR m + (IZR (b2z b) * 2 + IZR (b2z c)) / 4) <->
   (Z.even m = true /\ b = true /\ c = false /\ 0 < u) \/ (Z.even m = false /\ b = false /\ c = true /\ u = 1)).
Proof.
  intros H. destruct b, c; cbn [b2z].
  - rewrite (nearest_up m ((1 * 2 + 1 + u) / 4)) by lra. rewrite (nearest_up m ((1 * 2 + 1) / 4)) by lra. split; [intros K; destruct K; reflexivity|intros [(_ & _ & K & _)|(_ & K & _)]; discriminate].
  - replace ((1 * 2 + 0) / 4) with (/ 2) by field. rewrite nearest_tie. destruct (Rle_lt_or_eq_dec 0 u (proj1 H)) as [U|U].
    + rewrite (nearest_up m ((1 * 2 + 0 + u) / 4)) by lra. destruct (Z.even m) eqn:E; split.
      * intros _. left. repeat split; try reflexivity. exact U.
      * intros _ K. clear - K. lia.
      * intros K. destruct K. reflexivity.
      * intros [(K & _)|(_ & K & _)]; discriminate.
    + subst u. replace ((1 * 2 + 0 + 0) / 4) with (/ 2) by field. rewrite nearest_tie. split; [intros K; destruct K; reflexivity|intros [(_ & _ & _ & K)|(_ & K & _)]; [lra|discriminate]].
  - rewrite (nearest_down m ((0 * 2 + 1) / 4)) by lra. destruct (Rle_lt_or_eq_dec u 1 (proj2 H)) as [U|U].
    + rewrite (nearest_down m ((0 * 2 + 1 + u) / 4)) by lra. split; [intros K; destruct K; reflexivity|intros [(_ & K & _)|(_ & _ & _ & K)]; [discriminate|lra]].
    + subst u. replace ((0 * 2 + 1 + 1) / 4) with (/ 2) by field. rewrite nearest_tie. destruct (Z.even m) eqn:E; split.
      * intros K. destruct K. reflexivity.
      * intros [(_ & K & _)|(K & _)]; discriminate.
      * intros _. right. repeat split; reflexivity.
      * intros _ K. clear - K. lia.
  - rewrite (nearest_down m ((0 * 2 + 0 + u) / 4)) by lra. rewrite (nearest_down m ((0 * 2 + 0) / 4)) by lra. split; [intros K; destruct K; reflexivity|intros [(_ & K & _)|(_ & _ & K & _)]; discriminate].
Qed.
(** The bits of a double of a random number in (0, 1) are its digits z, ..., z + 52; its double is not the one that IEEE 754 asks for exactly
    when digits z + 52, z + 53, z + 54 are 0, 1, 0 and not all digits after them are 0 - or they are 1, 0, 1 and all digits after them are 1. *)
Theorem C60_random_exactly_partial : forall rng seed z v fuel d, rng seed z = true -> (forall i, (i < z)%nat -> rng seed i = false) -> (z <= 1021)%nat ->
  num_value rng (RAtom (ARandom seed)) v -> num_double rng fuel (RAtom (ARandom seed)) = Some d ->
  (arf2R d <> nearest_double v <->
   (rng seed (z + 52)%nat = false /\ rng seed (z + 53)%nat = true /\ rng seed (z + 54)%nat = false /\ exists i, (z + 54 < i)%nat /\ rng seed i = true) \/
   (rng seed (z + 52)%nat = true /\ rng seed (z + 53)%nat = false /\ rng seed (z + 54)%nat = true /\ forall i, (z + 54 < i)%nat -> rng seed i = true)).
Proof.
  intros rng seed z v fuel d H1 H0 Hz Hv Hd. cbn [num_value atom_value] in Hv. unfold num_double in Hd. destruct (num_arf rng fuel (RAtom (ARandom seed)) ARF_DOUBLE_PRECISION) as [a|] eqn:Ea; [|discriminate].
  cbn [option_map] in Hd. injection Hd as <-. rewrite arf_to_double_spec. fold (nearest_double (arf2R a)).
  assert (E0 : a = random_closed (rng seed) z 54) by exact (arf_random_det rng seed z 54 fuel a H1 H0 Ea). subst a. clear Ea. set (s := rng seed) in *.
  destruct (split_digits s v (z + 55) Hv) as (u & U & E). pose proof (stream_value_range _ _ U) as B.
  pose proof (prefix_range s z 52 H1 H0) as R. replace (z + Datatypes.S 52)%nat with (z + 53)%nat in R by lia. change (2 ^ Z.of_nat 52)%Z with (2 ^ 52)%Z in R. change (2 ^ (Z.of_nat 52 + 1))%Z with (2 ^ 53)%Z in R.
  set (m := prefix s (z + 53)) in *. assert (P : prefix s (z + 55) = (4 * m + 2 * b2z (s (z + 53)%nat) + b2z (s (z + 54)%nat))%Z).
  { replace (z + 55)%nat with (Datatypes.S (Datatypes.S (z + 53))) by lia. cbn [prefix]. fold m. replace (Datatypes.S (z + 53)) with (z + 54)%nat by lia. destruct (s (z + 53)%nat), (s (z + 54)%nat); cbn [b2z]; lia. }
  assert (Ev : Z.even m = negb (s (z + 52)%nat)).
  { unfold m. replace (z + 53)%nat with (Datatypes.S (z + 52)) by lia. cbn [prefix]. rewrite Z.add_comm. rewrite Z.even_add_mul_2. destruct (s (z + 52)%nat); reflexivity. }
  set (e := (- Z.of_nat (z + 53))%Z). assert (He : (-1074 <= e)%Z) by (unfold e; lia).
  assert (Q : bpow radix2 (- Z.of_nat (z + 55)) = bpow radix2 e / 4).
  { replace (- Z.of_nat (z + 55))%Z with (e + -2)%Z by (unfold e; lia). rewrite bpow_plus. change (bpow radix2 (-2)) with (/ 4). field. }
  set (b := s (z + 53)%nat) in *. set (c := s (z + 54)%nat) in *. set (f := IZR (b2z b) * 2 + IZR (b2z c)).
  assert (Ff : 0 <= f <= 3) by (unfold f; destruct b, c; cbn [b2z]; lra).
  assert (A : arf2R (random_closed s z 54) = (IZR m + f / 4) * bpow radix2 e).
  { unfold arf2R, random_closed. cbn [am ae]. change (clamp 54) with 54%Z. change (Z.to_nat (54 + 1)) with 55%nat. replace (- (Z.of_nat z + (54 + 1)))%Z with (- Z.of_nat (z + 55))%Z by lia.
    rewrite P, Q, !plus_IZR, !mult_IZR. unfold f. field. }
  assert (V : v = (IZR m + (f + u) / 4) * bpow radix2 e).
  { rewrite E, P, Q, !plus_IZR, !mult_IZR. unfold f. field. }
  assert (Lm : IZR (2 ^ 52) <= IZR m) by (apply IZR_le; lia). assert (Um : IZR m <= IZR (2 ^ 53) - 1) by (rewrite <- minus_IZR; apply IZR_le; lia).
  rewrite A, V, !nearest_binade; try exact He; try (change (bpow radix2 52) with (IZR (2 ^ 52)); change (bpow radix2 53) with (IZR (2 ^ 53)); lra).
  transitivity (ZnearestE (IZR m + (f + u) / 4) <> ZnearestE (IZR m + f / 4)).
  { split; intros K K'; apply K; [rewrite K'; reflexivity|]. apply Rmult_eq_reg_r in K'; [|pose proof (bpow_gt_0 radix2 e); lra]. symmetry. apply eq_IZR, K'. }
  unfold f. rewrite (rounding_differs m b c u B). rewrite Ev.
  assert (T1 : 0 < u <-> exists i, (z + 54 < i)%nat /\ s i = true).
  { split.
    - intros K. destruct (tail_nonzero s u (z + 55) U K) as (i & Hi & Si). exists i. split; [lia|exact Si].
    - intros (i & Hi & Si). apply (tail_positive _ _ (i - (z + 55)) U). cbn beta. replace (z + 55 + (i - (z + 55)))%nat with i by lia. exact Si. }
  assert (T2 : u = 1 <-> forall i, (z + 54 < i)%nat -> s i = true).
  { split.
    - intros K i Hi. destruct (s i) eqn:Si; [reflexivity|exfalso]. pose proof (tail_below _ _ (i - (z + 55)) U) as K2. cbn beta in K2. replace (z + 55 + (i - (z + 55)))%nat with i in K2 by lia. specialize (K2 Si). lra.
    - intros K. apply (tail_one _ _ U). intros i. apply K. lia. }
  rewrite T1, T2. destruct (s (z + 52)%nat); cbn [negb]; split; (intros [(K1 & K2 & K3 & K4)|(K1 & K2 & K3 & K4)]; try discriminate K1).
  - right. auto.
  - right. auto.
  - left. auto.
  - left. auto.
Qed.
(** With the library's digits: one pattern of three digits decides. *)
Theorem C60_rand48_exactly_partial : forall seed z v fuel d, rand48 seed z = true -> (forall i, (i < z)%nat -> rand48 seed i = false) -> (z <= 1021)%nat ->
  num_value rand48 (RAtom (ARandom seed)) v -> num_double rand48 fuel (RAtom (ARandom seed)) = Some d ->
  (arf2R d = nearest_double v <-> ~ (rand48 seed (z + 52)%nat = false /\ rand48 seed (z + 53)%nat = true /\ rand48 seed (z + 54)%nat = false)).
Proof.
  intros seed z v fuel d H1 H0 Hz Hv Hd. pose proof (C60_random_exactly_partial rand48 seed z v fuel d H1 H0 Hz Hv Hd) as K. split.
  - intros E (A & B & C). destruct (rand48_tail seed (z + 54) true) as (i & Hi & Ei). apply (proj2 K); [left|exact E]. split; [exact A|]. split; [exact B|]. split; [exact C|]. exists i. split; assumption.
  - intros N. destruct (Req_dec (arf2R d) (nearest_double v)) as [E|E]; [exact E|exfalso]. apply K in E. destruct E as [(A & B & C & _)|(_ & _ & _ & F)]; [apply N; split; [exact A|split; assumption]|].
    destruct (rand48_tail seed (z + 54) false) as (i & Hi & Ei). rewrite (F i Hi) in Ei. discriminate.
Qed.
(** Cases: the first random number (seed 1337) at precision 1 (right) and at precision 2 (wrong); the doubles of the first (right) and the fourth (wrong). *)
Example C58_exactly_case : exists v b b', num_value rand48 (RAtom (ARandom 1337)) v /\ num_arb rand48 100 (RAtom (ARandom 1337)) 1 = Some b /\ contains b v /\
  num_arb rand48 100 (RAtom (ARandom 1337)) 2 = Some b' /\ ~ contains b' v.
Proof.
  destruct (stream_value_exists (rand48 1337)) as [v V]. assert (H0 : forall i, (i < 1)%nat -> rand48 1337 i = false) by (intros i Hi; replace i with O by lia; c48). assert (H1 : rand48 1337 1 = true) by c48.
  destruct (num_arb rand48 100 (RAtom (ARandom 1337)) 1) as [b|] eqn:Eb; [|exfalso; revert Eb; rewrite ?rand48_fast; vm_compute; discriminate].
  destruct (num_arb rand48 100 (RAtom (ARandom 1337)) 2) as [b'|] eqn:Eb'; [|exfalso; revert Eb'; rewrite ?rand48_fast; vm_compute; discriminate].
  exists v, b, b'. split; [exact V|]. split; [reflexivity|]. split.
  - apply (C58_rand48_exactly_partial 1337 1 v 100 1 b H1 H0 V ltac:(lia) Eb). c48.
  - split; [reflexivity|]. intros K. apply (C58_rand48_exactly_partial 1337 1 v 100 2 b' H1 H0 V ltac:(lia) Eb') in K. revert K. rewrite ?rand48_fast. vm_compute. discriminate.
Qed.
Example C60_exactly_case : exists v d w d', num_value rand48 (RAtom (ARandom 1337)) v /\ num_double rand48 100 (RAtom (ARandom 1337)) = Some d /\ arf2R d = nearest_double v /\
  num_value rand48 (RAtom (ARandom 1340)) w /\ num_double rand48 100 (RAtom (ARandom 1340)) = Some d' /\ arf2R d' <> nearest_double w.
Proof.
  destruct (stream_value_exists (rand48 1337)) as [v V]. destruct (stream_value_exists (rand48 1340)) as [w W].
  destruct (num_double rand48 100 (RAtom (ARandom 1337))) as [d|] eqn:Ed; [|exfalso; revert Ed; rewrite ?rand48_fast; vm_compute; discriminate].
  destruct (num_double rand48 100 (RAtom (ARandom 1340))) as [d'|] eqn:Ed'; [|exfalso; revert Ed'; rewrite ?rand48_fast; vm_compute; discriminate].
  exists v, d, w, d'. split; [exact V|]. split; [reflexivity|]. split.
  - apply (C60_rand48_exactly_partial 1337 1 v 100 d); [c48|intros i Hi; replace i with O by lia; c48|lia|exact V|exact Ed|]. intros (A & B & C). revert A B C. rewrite ?rand48_fast. vm_compute. discriminate.
  - split; [exact W|]. split; [reflexivity|]. intros K. apply (C60_rand48_exactly_partial 1340 1 w 100 d') in K; [|c48|intros i Hi; replace i with O by lia; c48|lia|exact W|exact Ed'].
    apply K. split; [c48|split; c48].
Qed.

(** * Rational numbers *)
Local Instance precp p (H : (0 < p)%Z) : Prec_gt_0 p. Proof. exact H. Qed.
Lemma round_at_exponent p k w : (1 <= p)%Z -> bpow radix2 (k - 1) <= Rabs w < bpow radix2 k -> 
  round radix2 (FLX_exp p) ZnearestE w = IZR (ZnearestE (w * bpow radix2 (p - k))) * bpow radix2 (k - p).
Proof.
  intros Hp H. assert (M : mag radix2 w = k :> Z) by (apply mag_unique, H). unfold round, scaled_mantissa, cexp, F2R. cbn [Fnum Fexp]. rewrite M. unfold FLX_exp. replace (- (k - p))%Z with (p - k)%Z by ring. reflexivity.
Qed.
(** A rational number of k bits before the point: the ball at prec contains it exactly when prec bits are off by at most a quarter of the last one,
    or rounding leads to the next power of two. *)
Theorem C58_rational_exactly_partial : forall rng fuel (q : Q) k prec b, bpow radix2 (k - 1) <= Rabs (Q2R q) < bpow radix2 k -> (1 <= prec)%Z -> num_arb rng fuel (RRat q) prec = Some b ->
  let x := Q2R q * bpow radix2 (prec - k) in contains b (Q2R q) <-> Rabs (x - IZR (ZnearestE x)) <= / 4 \/ Rabs (IZR (ZnearestE x)) = bpow radix2 prec.
Proof.
  intros rng fuel q k prec b Hq Hp Hb x. unfold num_arb, num_refine in Hb.
  destruct (Z.leb_spec prec (rel_accuracy_bits arb_zero_pm_inf)) as [C|_]; [exfalso; change (rel_accuracy_bits arb_zero_pm_inf) with (- ARF_PREC_EXACT)%Z in C; unfold ARF_PREC_EXACT in C; lia|].
  cbn [num_arf option_map] in Hb. fold (clamp prec) in Hb. rewrite clamp_pos in Hb by exact Hp. injection Hb as <-. set (a := arf_rational q prec).
  set (n := ZnearestE x). set (c := bpow radix2 (k - prec)). assert (Pc : 0 < c) by apply bpow_gt_0.
  assert (A : arf2R a = IZR n * c) by (unfold a; rewrite arf_rational_spec by exact Hp; apply round_at_exponent; assumption).
  assert (X : Q2R q = x * c). { unfold x, c. rewrite Rmult_assoc, <- bpow_plus. replace (prec - k + (k - prec))%Z with 0%Z by ring. change (bpow radix2 0) with 1. ring. }
  assert (Pp : 0 < bpow radix2 prec) by apply bpow_gt_0. assert (Bk : bpow radix2 k = bpow radix2 prec * c) by (unfold c; rewrite <- bpow_plus; f_equal; ring).
  assert (Bk1 : bpow radix2 (k - 1) = bpow radix2 (prec - 1) * c) by (unfold c; rewrite <- bpow_plus; f_equal; ring).
  assert (Hx : bpow radix2 (prec - 1) <= Rabs x < bpow radix2 prec).
  { rewrite X, Rabs_mult, (Rabs_pos_eq c), Bk, Bk1 in Hq by lra. split; [apply (Rmult_le_reg_r c); lra|apply (Rmult_lt_reg_r c); lra]. }
  assert (Dn : Rabs (x - IZR n) <= / 2) by (apply Znearest_half).
  assert (P1 : bpow radix2 (prec - 1) = IZR (2 ^ (prec - 1))) by (symmetry; apply IZR_pow2; lia). assert (P2 : bpow radix2 prec = IZR (2 ^ prec)) by (symmetry; apply IZR_pow2; lia).
  assert (Bn : (2 ^ (prec - 1) <= Z.abs n <= 2 ^ prec)%Z).
  { assert (T1 : Rabs x <= Rabs (IZR n) + / 2) by (replace x with (IZR n + (x - IZR n)) at 1 by ring; eapply Rle_trans; [apply Rabs_triang|lra]).
    assert (T2 : Rabs (IZR n) <= Rabs x + / 2) by (replace (IZR n) with (x + - (x - IZR n)) at 1 by ring; eapply Rle_trans; [apply Rabs_triang|rewrite Rabs_Ropp; lra]).
    rewrite P1, P2 in Hx. rewrite <- abs_IZR in T1, T2. split.
    - apply Z.lt_succ_r. apply lt_IZR. unfold Z.succ. rewrite plus_IZR. lra.
    - apply Z.lt_succ_r. apply lt_IZR. unfold Z.succ. rewrite plus_IZR. lra. }
  pose proof (pow2_pos (prec - 1) ltac:(lia)) as Q1. assert (Dc : Rabs (Q2R q - IZR n * c) = Rabs (x - IZR n) * c).
  { rewrite X. replace (x * c - IZR n * c) with ((x - IZR n) * c) by ring. rewrite Rabs_mult, (Rabs_pos_eq c) by lra. reflexivity. }
  assert (Na : am a <> 0%Z).
  { intros K. assert (E0 : arf2R a = 0) by (unfold arf2R; rewrite K; ring). rewrite A in E0. apply Rmult_integral in E0. destruct E0 as [E0|E0]; [|lra]. apply eq_IZR in E0. rewrite E0 in Bn. change (Z.abs 0) with 0%Z in Bn. lia. }
  unfold contains, refine_ball. cbn [rad mid]. rewrite A, Dc. rewrite (arf_expo_mag a Na), A.
  unfold arf2R. cbn [am ae]. rewrite Rmult_1_l. rewrite <- abs_IZR, P2.
  assert (Hs : forall u, (0 < Z.abs n)%Z -> bpow radix2 (u - 1) <= IZR (Z.abs n) < bpow radix2 u -> mag radix2 (IZR n * c) = (u + (k - prec))%Z :> Z).
  { intros u _ [L U]. apply mag_unique. rewrite Rabs_mult, <- abs_IZR, (Rabs_pos_eq c) by lra. replace (u + (k - prec) - 1)%Z with (u - 1 + (k - prec))%Z by ring. rewrite !bpow_plus. fold c. split; [apply Rmult_le_compat_r; lra|apply Rmult_lt_compat_r; lra]. }
  destruct (Z.eq_dec (Z.abs n) (2 ^ prec)) as [E|N].
  - rewrite (Hs (prec + 1)%Z ltac:(lia)).
    2:{ rewrite E. replace (prec + 1 - 1)%Z with prec by ring. rewrite bpow_plus, <- P2. change (bpow radix2 1) with 2. lra. }
    replace (prec + 1 + (k - prec) - 1 - (prec + 1))%Z with (-1 + (k - prec))%Z by ring. rewrite bpow_plus. change (bpow radix2 (-1)) with (/ 2). fold c. split; [intros _; right; rewrite E; reflexivity|]. intros _. apply Rmult_le_compat_r; [lra|exact Dn].
  - assert (Lt : (Z.abs n < 2 ^ prec)%Z) by lia. rewrite (Hs prec ltac:(lia)).
    2:{ rewrite P1, P2. split; [apply IZR_le; lia|apply IZR_lt; exact Lt]. }
    replace (prec + (k - prec) - 1 - (prec + 1))%Z with (-2 + (k - prec))%Z by ring. rewrite bpow_plus. change (bpow radix2 (-2)) with (/ 4). fold c. split.
    + intros K. left. apply (Rmult_le_reg_r c); lra.
    + intros [K|K]; [apply Rmult_le_compat_r; lra|]. apply eq_IZR in K. lia.
Qed.
Lemma pow2_mod3 p : (0 <= p)%Z -> exists m, (2 ^ p = 3 * m + 1 \/ 2 ^ p = 3 * m + 2)%Z.
Proof.
  intros H. pattern p. apply natlike_ind; [exists 0%Z; left; reflexivity| |exact H]. intros q Hq (m & [E|E]); rewrite Z.pow_succ_r, E by exact Hq; [exists (2 * m)%Z; right; ring|exists (2 * m + 1)%Z; left; ring].
Qed.
(** The ball of 1/3 does not contain 1/3, at any precision. *)
Theorem C58_third_refuted : forall rng fuel prec, (1 <= prec)%Z -> exists b, num_arb rng fuel (RRat (1 # 3)) prec = Some b /\ ~ contains b (1 / 3).
Proof.
  intros rng fuel prec Hp. destruct (num_arb rng fuel (RRat (1 # 3)) prec) as [b|] eqn:Eb.
  2:{ exfalso. unfold num_arb, num_refine in Eb. destruct (prec <=? rel_accuracy_bits arb_zero_pm_inf)%Z; discriminate. }
  exists b. split; [reflexivity|]. assert (V : Q2R (1 # 3) = 1 / 3) by (unfold Q2R; cbn; field). rewrite <- V.
  pose proof (C58_rational_exactly_partial rng fuel (1 # 3) (-1) prec b) as K. rewrite V in K. change (bpow radix2 (-1 - 1)) with (/ 4) in K. change (bpow radix2 (-1)) with (/ 2) in K. rewrite (Rabs_pos_eq (1 / 3)) in K by lra.
  specialize (K ltac:(lra) Hp Eb). cbn zeta in K. rewrite V. rewrite K. clear K Eb. replace (prec - -1)%Z with (prec + 1)%Z by ring.
  set (n := ZnearestE (1 / 3 * bpow radix2 (prec + 1))). assert (P1 : bpow radix2 (prec + 1) = IZR (2 * 2 ^ prec)) by (rewrite <- (IZR_pow2 (prec + 1)) by lia; rewrite Z.pow_add_r by lia; f_equal; ring).
  assert (N3 : (1 <= Z.abs (2 * 2 ^ prec - 3 * n))%Z).
  { pose proof (pow2_mod3 prec ltac:(lia)) as M. destruct (Z.eq_dec (2 * 2 ^ prec - 3 * n) 0) as [E|E]; [exfalso|lia]. destruct M as (m & M). lia. }
  assert (D : Rabs (1 / 3 * bpow radix2 (prec + 1) - IZR n) = IZR (Z.abs (2 * 2 ^ prec - 3 * n)) / 3).
  { rewrite P1, abs_IZR, minus_IZR, mult_IZR with (m := n). set (t := IZR (2 * 2 ^ prec)). replace (1 / 3 * t - IZR n) with ((t - 3 * IZR n) * / 3) by field. rewrite Rabs_mult, (Rabs_pos_eq (/ 3)) by lra. reflexivity. }
  apply IZR_le in N3. intros [K|K].
  - rewrite D in K. lra.
  - assert (T : Rabs (1 / 3 * bpow radix2 (prec + 1) - IZR n) <= / 2) by apply Znearest_half. rewrite D in T. rewrite <- (IZR_pow2 prec), <- abs_IZR in K by lia. apply eq_IZR in K.
    assert (B : (2 ^ prec <= Z.abs (2 * 2 ^ prec - 3 * n))%Z) by lia. assert (B2 : (2 <= 2 ^ prec)%Z) by (replace prec with (1 + (prec - 1))%Z by ring; rewrite Z.pow_add_r by lia; pose proof (pow2_pos (prec - 1) ltac:(lia)); lia).
    assert (B3 := Z.le_trans _ _ _ B2 B). apply IZR_le in B3. lra.
Qed.

(** * The double of a rational number *)
Lemma nearest_binade_abs x e : bpow radix2 52 <= Rabs x <= bpow radix2 53 -> (-1074 <= e)%Z -> nearest_double (x * bpow radix2 e) = IZR (ZnearestE x) * bpow radix2 e.
Proof.
  intros [L U] He. pose proof (bpow_gt_0 radix2 e) as P. unfold nearest_double. destruct (Rle_lt_or_eq_dec _ _ U) as [U'|U'].
  - assert (M : mag radix2 (x * bpow radix2 e) = (53 + e)%Z :> Z).
    { apply mag_unique. rewrite Rabs_mult, (Rabs_pos_eq (bpow radix2 e)) by lra. replace (53 + e - 1)%Z with (52 + e)%Z by ring. rewrite !bpow_plus. split; [apply Rmult_le_compat_r; lra|apply Rmult_lt_compat_r; lra]. }
    unfold round, scaled_mantissa, cexp, F2R. cbn [Fnum Fexp]. rewrite M. replace (FLT_exp (-1074) 53 (53 + e)) with e by (unfold FLT_exp; lia).
    rewrite Rmult_assoc, <- bpow_plus. replace (e + - e)%Z with 0%Z by ring. change (bpow radix2 0) with 1. rewrite Rmult_1_r. reflexivity.
  - assert (E : exists i, x = IZR i /\ (i = 2 ^ 53 \/ i = - 2 ^ 53)%Z).
    { change (bpow radix2 53) with (IZR (2 ^ 53)) in U'. unfold Rabs in U'. destruct (Rcase_abs x); [exists (- 2 ^ 53)%Z; split; [rewrite opp_IZR; lra|right; reflexivity]|exists (2 ^ 53)%Z; split; [lra|left; reflexivity]]. }
    destruct E as (i & -> & Hi). rewrite (Zrnd_IZR ZnearestE). apply round_generic; [exact _|].
    assert (G : generic_format radix2 (FLT_exp (-1074) 53) (bpow radix2 53 * bpow radix2 e)) by (rewrite <- bpow_plus; apply generic_format_bpow; unfold FLT_exp; lia).
    change (bpow radix2 53) with (IZR (2 ^ 53)) in G. destruct Hi as [-> | ->]; [exact G|]. rewrite opp_IZR. replace (- IZR (2 ^ 53) * bpow radix2 e) with (- (IZR (2 ^ 53) * bpow radix2 e)) by ring. apply generic_format_opp, G.
Qed.
Lemma double_rounding x : ZnearestE (IZR (ZnearestE (2 * x)) / 2) <> ZnearestE x <->
  exists m, (Z.even m = true /\ 0 < x - (IZR m + / 2) < / 4) \/ (Z.even m = false /\ - / 4 < x - (IZR m + / 2) < 0).
Proof.
  set (m := Zfloor x). pose proof (Zfloor_lb x) as F1. pose proof (Zfloor_ub x) as F2. fold m in F1, F2. set (f := x - IZR m). assert (Ex : x = IZR m + f) by (unfold f; ring). assert (Hf : 0 <= f < 1) by (unfold f; lra). clearbody f. clear F1 F2.
  assert (U : forall m', - / 4 < x - (IZR m' + / 2) < / 4 -> m' = m).
  { intros m' H. unfold m. symmetry. apply Zfloor_imp. rewrite plus_IZR. lra. }
  assert (E2 : 2 * x = IZR (2 * m) + 2 * f) by (rewrite mult_IZR, Ex; ring). rewrite E2. clearbody m.
  assert (N : (forall m', - / 4 < x - (IZR m' + / 2) < / 4 -> False) -> (exists m', (Z.even m' = true /\ 0 < x - (IZR m' + / 2) < / 4) \/ (Z.even m' = false /\ - / 4 < x - (IZR m' + / 2) < 0)) -> False).
  { intros H (m' & [[_ K]|[_ K]]); apply (H m'); lra. }
  destruct (Rlt_le_dec f (/ 4)) as [C1|C1]; [|destruct (Rle_lt_or_eq_dec _ _ C1) as [C2|C2]; clear C1; [|]].
  - rewrite (nearest_down (2 * m) (2 * f)) by lra. replace (IZR (2 * m) / 2) with (IZR m) by (rewrite mult_IZR; field). rewrite (Zrnd_IZR ZnearestE). rewrite Ex at 1. rewrite (nearest_down m f) by lra.
    split; [intros K; destruct K; reflexivity|]. intros K. exfalso. revert K. apply N. intros m' H. pose proof (U m' H) as ->. lra.
  - destruct (Rlt_le_dec f (3 / 4)) as [C3|C3].
    + assert (En : ZnearestE (IZR (2 * m) + 2 * f) = (2 * m + 1)%Z).
      { apply Znearest_imp. rewrite plus_IZR. replace (IZR (2 * m) + 2 * f - (IZR (2 * m) + 1)) with (2 * f - 1) by ring. apply Rabs_lt. lra. }
      rewrite En. replace (IZR (2 * m + 1) / 2) with (IZR m + / 2) by (rewrite plus_IZR, mult_IZR; field). rewrite nearest_tie. rewrite Ex at 1.
      destruct (Rtotal_order f (/ 2)) as [H|[H|H]].
      * rewrite (nearest_down m f) by lra. destruct (Z.even m) eqn:E.
        -- split; [intros K; destruct K; reflexivity|]. intros (m' & [[_ K]|[E' K]]); [pose proof (U m' ltac:(lra)) as ->; lra|pose proof (U m' ltac:(lra)) as ->; congruence].
        -- split; [|intros _ K; clear - K; lia]. intros _. exists m. right. split; [exact E|lra].
      * subst f. rewrite nearest_tie. split; [intros K; destruct K; reflexivity|]. intros (m' & [[_ K]|[_ K]]); pose proof (U m' ltac:(lra)) as ->; lra.
      * rewrite (nearest_up m f) by lra. destruct (Z.even m) eqn:E.
        -- split; [|intros _ K; clear - K; lia]. intros _. exists m. left. split; [exact E|lra].
        -- split; [intros K; destruct K; reflexivity|]. intros (m' & [[E' K]|[_ K]]); [pose proof (U m' ltac:(lra)) as ->; congruence|pose proof (U m' ltac:(lra)) as ->; lra].
    + assert (En : ZnearestE (IZR (2 * m) + 2 * f) = (2 * m + 2)%Z).
      { destruct (Rle_lt_or_eq_dec _ _ C3) as [C4|C4].
        - apply Znearest_imp. rewrite plus_IZR. replace (IZR (2 * m) + 2 * f - (IZR (2 * m) + 2)) with (2 * f - 2) by ring. apply Rabs_lt. lra.
        - replace (IZR (2 * m) + 2 * f) with (IZR (2 * m + 1) + / 2) by (rewrite plus_IZR; lra). rewrite nearest_tie. replace (Z.even (2 * m + 1)) with false; [lia|]. rewrite Z.add_comm, Z.even_add_mul_2. reflexivity. }
      rewrite En. replace (IZR (2 * m + 2) / 2) with (IZR (m + 1)) by (rewrite !plus_IZR, mult_IZR; field). rewrite (Zrnd_IZR ZnearestE). rewrite Ex at 1. rewrite (nearest_up m f) by lra.
      split; [intros K; destruct K; reflexivity|]. intros K. exfalso. revert K. apply N. intros m' H. pose proof (U m' H) as ->. lra.
  - subst f. replace (2 * / 4) with (/ 2) by field. rewrite nearest_tie. replace (Z.even (2 * m)) with true by (symmetry; rewrite Z.even_mul; reflexivity). replace (IZR (2 * m) / 2) with (IZR m) by (rewrite mult_IZR; field).
    rewrite (Zrnd_IZR ZnearestE). rewrite Ex at 1. rewrite (nearest_down m (/ 4)) by lra. split; [intros K; destruct K; reflexivity|]. intros K. exfalso. revert K. apply N. intros m' H. pose proof (U m' H) as ->. lra.
Qed.
(** In units of the last bit of a double, [x] is the number: its double is wrong exactly if it is less than a quarter away from the
    middle between two neighbours, on the side of the odd one. *)
Theorem C60_rational_exactly_partial : forall rng fuel (q : Q) k d, bpow radix2 (k - 1) <= Rabs (Q2R q) < bpow radix2 k -> (-1021 <= k)%Z -> num_double rng fuel (RRat q) = Some d ->
  let x := Q2R q * bpow radix2 (53 - k) in
  arf2R d <> nearest_double (Q2R q) <-> exists m, (Z.even m = true /\ 0 < x - (IZR m + / 2) < / 4) \/ (Z.even m = false /\ - / 4 < x - (IZR m + / 2) < 0).
Proof.
  intros rng fuel q k d Hq Hk Hd x. unfold num_double in Hd. cbn [num_arf option_map] in Hd. change (if (ARF_DOUBLE_PRECISION <? 1)%Z then 0%Z else ARF_DOUBLE_PRECISION) with 54%Z in Hd. injection Hd as <-.
  rewrite arf_to_double_spec. rewrite arf_rational_spec by lia. fold (nearest_double (round radix2 (FLX_exp 54) ZnearestE (Q2R q))). rewrite (round_at_exponent 54 k _ ltac:(lia) Hq).
  set (c := bpow radix2 (k - 53)). assert (Pc : 0 < c) by apply bpow_gt_0.
  assert (X : Q2R q = x * c). { unfold x, c. rewrite Rmult_assoc, <- bpow_plus. replace (53 - k + (k - 53))%Z with 0%Z by ring. change (bpow radix2 0) with 1. ring. }
  assert (X2 : Q2R q * bpow radix2 (54 - k) = 2 * x). { unfold x. replace (54 - k)%Z with (1 + (53 - k))%Z by ring. rewrite bpow_plus. change (bpow radix2 1) with 2. ring. }
  rewrite X2. set (n := ZnearestE (2 * x)). replace (IZR n * bpow radix2 (k - 54)) with (IZR n / 2 * c).
  2:{ unfold c. replace (k - 53)%Z with (1 + (k - 54))%Z by ring. rewrite bpow_plus. change (bpow radix2 1) with 2. field. }
  assert (Hx : bpow radix2 52 <= Rabs x < bpow radix2 53).
  { assert (Bk : bpow radix2 k = bpow radix2 53 * c) by (unfold c; rewrite <- bpow_plus; f_equal; ring). assert (Bk1 : bpow radix2 (k - 1) = bpow radix2 52 * c) by (unfold c; rewrite <- bpow_plus; f_equal; ring).
    rewrite X, Rabs_mult, (Rabs_pos_eq c), Bk, Bk1 in Hq by lra. split; [apply (Rmult_le_reg_r c); lra|apply (Rmult_lt_reg_r c); lra]. }
  assert (Dn : Rabs (2 * x - IZR n) <= / 2) by (apply Znearest_half).
  assert (Bn : (2 ^ 53 <= Z.abs n <= 2 ^ 54)%Z).
  { assert (A2 : Rabs (2 * x) = 2 * Rabs x) by (rewrite Rabs_mult, (Rabs_pos_eq 2) by lra; reflexivity).
    assert (T1 : Rabs (2 * x) <= Rabs (IZR n) + / 2) by (replace (2 * x) with (IZR n + (2 * x - IZR n)) at 1 by ring; eapply Rle_trans; [apply Rabs_triang|lra]).
    assert (T2 : Rabs (IZR n) <= Rabs (2 * x) + / 2) by (replace (IZR n) with (2 * x + - (2 * x - IZR n)) at 1 by ring; eapply Rle_trans; [apply Rabs_triang|rewrite Rabs_Ropp; lra]).
    rewrite A2 in T1, T2. rewrite <- abs_IZR in T1, T2. change (bpow radix2 52) with (IZR (2 ^ 52)) in Hx. change (bpow radix2 53) with (IZR (2 ^ 53)) in Hx.
    change (IZR (2 ^ 52)) with 4503599627370496 in Hx. change (IZR (2 ^ 53)) with 9007199254740992 in Hx. split; apply Z.lt_succ_r; apply lt_IZR; unfold Z.succ; rewrite plus_IZR.
    - change (IZR (2 ^ 53)) with 9007199254740992. lra.
    - change (IZR (2 ^ 54)) with 18014398509481984. lra. }
  unfold c. rewrite (nearest_binade_abs (IZR n / 2)); [|split|lia].
  2:{ unfold Rdiv. rewrite Rabs_mult, <- abs_IZR, (Rabs_pos_eq (/ 2)) by lra. destruct Bn as [Bn _]. apply IZR_le in Bn. change (bpow radix2 52) with (IZR (2 ^ 52)). change (IZR (2 ^ 52)) with 4503599627370496. change (IZR (2 ^ 53)) with 9007199254740992 in Bn. lra. }
  2:{ unfold Rdiv. rewrite Rabs_mult, <- abs_IZR, (Rabs_pos_eq (/ 2)) by lra. destruct Bn as [_ Bn]. apply IZR_le in Bn. change (bpow radix2 53) with (IZR (2 ^ 53)). change (IZR (2 ^ 53)) with 9007199254740992. change (IZR (2 ^ 54)) with 18014398509481984 in Bn. lra. }
  assert (X' := X). unfold c in X'. rewrite X', (nearest_binade_abs x); [|lra|lia]. fold c. unfold n. rewrite <- double_rounding. split; intros K K'; apply K; [rewrite K'; reflexivity|]. apply Rmult_eq_reg_r in K'; [|lra]. apply eq_IZR, K'.
Qed.
Example C60_rational_exactly_case : exists d, num_double rand48 0 (RRat (36028797018963973 # 8)) = Some d /\ arf2R d <> nearest_double (Q2R (36028797018963973 # 8)).
Proof.
  destruct (num_double rand48 0 (RRat (36028797018963973 # 8))) as [d|] eqn:Ed; [|discriminate Ed]. exists d. split; [reflexivity|].
  assert (V : Q2R (36028797018963973 # 8) = 4503599627370496 + 5 / 8) by (unfold Q2R; cbn [Qnum Qden]; lra).
  apply (C60_rational_exactly_partial rand48 0 (36028797018963973 # 8) 53 d); [|lia|exact Ed|].
  - rewrite V, Rabs_pos_eq by lra. change (bpow radix2 (53 - 1)) with (IZR (2 ^ 52)). change (bpow radix2 53) with (IZR (2 ^ 53)). change (IZR (2 ^ 52)) with 4503599627370496. change (IZR (2 ^ 53)) with 9007199254740992. lra.
  - exists 4503599627370496%Z. left. split; [reflexivity|]. rewrite V. change (53 - 53)%Z with 0%Z. change (bpow radix2 0) with 1. lra.
Qed.

(** * cmp *)
(** Numbers with few bits: from 2^k on they are multiples of 2^(k + 1 - p); below 2^k they are at least 2^(k - p) below it. *)
Lemma fits_multiple p w k : (1 <= p)%Z -> fits p w -> bpow radix2 k <= w -> exists m, w = IZR m * bpow radix2 (k + 1 - p).
Proof.
  intros Hp F L. assert (Pp : Prec_gt_0 p) by (unfold Prec_gt_0; lia). apply FLX_format_generic in F; [|exact _]. destruct F as [[m e] -> Hm]. cbn [Fnum] in Hm. change (Z.pow radix2 p) with (2 ^ p)%Z in Hm. unfold F2R in *. cbn [Fnum Fexp] in *.
  destruct (Z_le_gt_dec (k + 1 - p) e) as [C|C].
  - exists (m * 2 ^ (e - (k + 1 - p)))%Z. rewrite mult_IZR, IZR_pow2 by lia. rewrite Rmult_assoc, <- bpow_plus. f_equal. f_equal. ring.
  - exfalso. assert (K0 : IZR m < bpow radix2 p) by (rewrite <- IZR_pow2 by lia; apply IZR_lt; lia).
    assert (K : IZR m * bpow radix2 e < bpow radix2 (p + e)) by (rewrite bpow_plus; apply Rmult_lt_compat_r; [apply bpow_gt_0|exact K0]).
    assert (bpow radix2 (p + e) <= bpow radix2 k) by (apply bpow_le; lia). lra.
Qed.
Lemma fits_below p w k : (1 <= p)%Z -> fits p w -> w < bpow radix2 k -> w <= bpow radix2 k - bpow radix2 (k - p).
Proof.
  intros Hp F L. assert (Pp : Prec_gt_0 p) by (unfold Prec_gt_0; lia). assert (G : generic_format radix2 (FLX_exp p) (bpow radix2 k)) by (apply generic_format_bpow; unfold FLX_exp; lia).
  pose proof (pred_ge_gt radix2 (FLX_exp p) w (bpow radix2 k) F G L) as H. rewrite pred_bpow in H. unfold FLX_exp in H. exact H.
Qed.
Lemma fits_more p q w : (p <= q)%Z -> fits p w -> fits q w.
Proof. intros H. apply generic_inclusion_mag. intros _. unfold FLX_exp. lia. Qed.
Lemma grid_step m n d : 0 < d -> IZR m * d < IZR n * d -> IZR m * d + d <= IZR n * d.
Proof. intros P H. apply Rmult_lt_reg_r in H; [|exact P]. apply lt_IZR in H. assert (K : (m + 1 <= n)%Z) by lia. apply IZR_le in K. rewrite plus_IZR in K. replace (IZR m * d + d) with ((IZR m + 1) * d) by ring. apply Rmult_le_compat_r; lra. Qed.
(** Random numbers: cmp is right about the lower end; the upper end is taken to be larger by one bit more than the ends have. *)
Theorem C59_random_exactly_partial : forall rng seed z v fuel b lo hi c, rng seed z = true -> (forall i, (i < z)%nat -> rng seed i = false) -> (forall n d, exists i, (n < i)%nat /\ rng seed i = d) ->
  num_value rng (RAtom (ARandom seed)) v -> arb_interval b = Some (lo, hi) -> arf2R lo <= arf2R hi -> num_cmp rng fuel (RAtom (ARandom seed)) b = Some c ->
  let margin := bpow radix2 (- (Z.of_nat z + Z.max (arf_bits lo) (arf_bits hi) + 2)) in
  (c = (-1)%Z <-> v < arf2R lo) /\ (c = 0%Z <-> arf2R lo <= v < arf2R hi + margin) /\ (c = 1%Z <-> arf2R hi + margin <= v).
Proof.
  intros rng seed z v fuel b lo hi c H1 H0 Ht Hv Hi Ord Hc margin. cbn [num_value atom_value] in Hv. unfold num_cmp in Hc. rewrite Hi in Hc.
  set (P := Z.max (arf_bits lo) (arf_bits hi)) in *. assert (P0 : (0 <= P)%Z) by (pose proof (RealProofs4.arf_bits_nonneg lo); unfold P; lia). set (prec := (P + 1)%Z) in *.
  destruct (num_arf rng fuel (RAtom (ARandom seed)) prec) as [a|] eqn:Ea; [|discriminate]. cbn [num_arf] in Ea. fold (clamp prec) in Ea. rewrite clamp_pos in Ea by (unfold prec; lia). cbn [arf_atom] in Ea.
  apply (arf_random_det rng seed z prec fuel a H1 H0) in Ea. subst a. set (s := rng seed) in *. set (N := (z + Z.to_nat prec + 1)%nat).
  destruct (split_digits s v N Hv) as (u & U & E).
  assert (B : 0 < u < 1).
  { destruct (Ht N true) as (i & Ni & Si). destruct (Ht N false) as (j & Nj & Sj). fold s in Si, Sj. split; [apply (tail_positive _ _ (i - N) U)|apply (tail_below _ _ (j - N) U)]; cbn beta; [replace (N + (i - N))%nat with i by lia; exact Si|replace (N + (j - N))%nat with j by lia; exact Sj]. }
  assert (En : (- Z.of_nat N = - (Z.of_nat z + P + 2))%Z) by (unfold N, prec; lia). assert (Em : bpow radix2 (- Z.of_nat N) = margin) by (unfold margin; f_equal; exact En).
  rewrite Em in E. assert (Pm : 0 < margin) by apply bpow_gt_0.
  assert (A : arf2R (random_closed s z prec) = IZR (prefix s N) * margin).
  { rewrite <- Em. unfold arf2R, random_closed. cbn [am ae]. rewrite (clamp_pos prec) by (unfold prec; lia). f_equal; [f_equal; f_equal; unfold N, prec; lia|f_equal; unfold N, prec; lia]. }
  set (t := arf2R (random_closed s z prec)) in *. assert (Vt : t < v < t + margin). { rewrite E, A. split; [|].
    - apply Rmult_lt_compat_r; lra.
    - replace (IZR (prefix s N) * margin + margin) with ((IZR (prefix s N) + 1) * margin) by ring. apply Rmult_lt_compat_r; lra. }
  set (k := (- Z.of_nat z - 1)%Z). assert (Tk : bpow radix2 k <= t).
  { pose proof (rc_range s z prec H1 H0) as [R _]. rewrite clamp_pos in R by (unfold prec; lia). unfold t, arf2R, random_closed in *. cbn [am ae] in *. rewrite clamp_pos in * by (unfold prec; lia).
    replace k with (prec + - (Z.of_nat z + (prec + 1)))%Z by (unfold k; ring). rewrite bpow_plus. apply Rmult_le_compat_r; [apply bpow_ge_0|]. rewrite <- IZR_pow2 by (unfold prec; lia). apply IZR_le, R. }
  assert (Grid : forall w, fits (Z.max 1 P) w -> bpow radix2 k <= w -> exists m, w = IZR m * margin).
  { intros w F L. destruct (fits_multiple (Z.max 1 P) w k ltac:(lia) F L) as (m & ->). exists (m * 2 ^ (k + 1 - Z.max 1 P + (Z.of_nat z + P + 2)))%Z. rewrite mult_IZR, IZR_pow2 by (unfold k; lia). unfold margin. rewrite Rmult_assoc, <- bpow_plus. f_equal. f_equal. ring. }
  assert (Flo : fits (Z.max 1 P) (arf2R lo)) by (apply (fits_more (Z.max 1 (arf_bits lo))); [unfold P; lia|apply RealProofs4.arf_fits]).
  assert (Fhi : fits (Z.max 1 P) (arf2R hi)) by (apply (fits_more (Z.max 1 (arf_bits hi))); [unfold P; lia|apply RealProofs4.arf_fits]).
  assert (Low : t < arf2R lo <-> v < arf2R lo).
  { split; [|lra]. intros K. destruct (Grid _ Flo ltac:(lra)) as (m & Em'). rewrite Em', A in K. apply (grid_step _ _ _ Pm) in K. rewrite <- Em', <- A in K. lra. }
  assert (Upp : arf2R hi < t <-> arf2R hi + margin <= v).
  { split; [|lra]. intros K. destruct (Rle_lt_dec (bpow radix2 k) (arf2R hi)) as [C|C].
    - destruct (Grid _ Fhi C) as (m & Em'). rewrite Em', A in K. apply (grid_step _ _ _ Pm) in K. rewrite <- Em', <- A in K. lra.
    - pose proof (fits_below (Z.max 1 P) (arf2R hi) k ltac:(lia) Fhi C) as D. assert (margin <= bpow radix2 (k - Z.max 1 P)) by (unfold margin; apply bpow_le; unfold k; lia). lra. }
  destruct (arf_ltb (random_closed s z prec) lo) eqn:E1.
  - apply arf_ltb_spec in E1. fold t in E1. injection Hc as <-. apply Low in E1. split; [split; [intros _; exact E1|reflexivity]|]. split; (split; [discriminate|]); intros K; exfalso; lra.
  - assert (N1 : ~ t < arf2R lo) by (intros K; apply arf_ltb_spec in K; congruence). rewrite Low in N1.
    destruct (arf_ltb hi (random_closed s z prec)) eqn:E2.
    + apply arf_ltb_spec in E2. fold t in E2. injection Hc as <-. apply Upp in E2. split; [split; [discriminate|intros K; exfalso; lra]|]. split; [split; [discriminate|intros K; exfalso; lra]|]. split; [intros _; exact E2|reflexivity].
    + assert (N2 : ~ arf2R hi < t) by (intros K; apply arf_ltb_spec in K; congruence). rewrite Upp in N2. injection Hc as <-. split; [split; [discriminate|intros K; exfalso; lra]|]. split; [split; [intros _; lra|reflexivity]|]. split; [discriminate|intros K; exfalso; lra].
Qed.
Theorem C59_rand48_exactly_partial : forall seed z v fuel b lo hi c, rand48 seed z = true -> (forall i, (i < z)%nat -> rand48 seed i = false) ->
  num_value rand48 (RAtom (ARandom seed)) v -> arb_interval b = Some (lo, hi) -> arf2R lo <= arf2R hi -> num_cmp rand48 fuel (RAtom (ARandom seed)) b = Some c ->
  let margin := bpow radix2 (- (Z.of_nat z + Z.max (arf_bits lo) (arf_bits hi) + 2)) in
  (c = (-1)%Z <-> v < arf2R lo) /\ (c = 0%Z <-> arf2R lo <= v < arf2R hi + margin) /\ (c = 1%Z <-> arf2R hi + margin <= v).
Proof. intros seed z v fuel b lo hi c H1 H0 Hv Hi Ord Hc. exact (C59_random_exactly_partial rand48 seed z v fuel b lo hi c H1 H0 (rand48_tail seed) Hv Hi Ord Hc). Qed.
(** The first random number is about 0.3036, but cmp says that it is in the ball 1/4 +- 0. *)
Example C59_exactly_case : exists v, num_value rand48 (RAtom (ARandom 1337)) v /\ num_cmp rand48 100 (RAtom (ARandom 1337)) (arb_of_arf (mkArf 1 (-2))) = Some 0%Z /\ 1 / 4 < v < 1 / 4 + 1 / 16.
Proof.
  destruct (stream_value_exists (rand48 1337)) as [v V]. exists v. assert (E : num_cmp rand48 100 (RAtom (ARandom 1337)) (arb_of_arf (mkArf 1 (-2))) = Some 0%Z) by c48. split; [exact V|]. split; [exact E|].
  assert (A : arf2R (mkArf 1 (-2)) = 1 / 4) by (unfold arf2R; cbn [am ae]; change (bpow radix2 (-2)) with (/ 4); lra).
  destruct (C59_rand48_exactly_partial 1337 1 v 100 (arb_of_arf (mkArf 1 (-2))) (mkArf 1 (-2)) (mkArf 1 (-2)) 0) as (_ & K & _); [c48|intros i Hi; replace i with O by lia; c48|exact V|reflexivity|lra|exact E|].
  apply proj1 in K. specialize (K eq_refl). change (- (Z.of_nat 1 + Z.max (arf_bits (mkArf 1 (-2))) (arf_bits (mkArf 1 (-2))) + 2))%Z with (-4)%Z in K. change (bpow radix2 (-4)) with (/ 16) in K. rewrite A in K.
  split; [|lra]. specialize (V 5%nat). replace (prefix (rand48 1337) 5) with 9%Z in V by c48. change (bpow radix2 (Z.of_nat 5)) with 32 in V. lra.
Qed.

(** * Comparison with dyadic numbers *)
From Verif Require Import RealProofs5.
Lemma prefix_grows s : forall M N, (N <= M)%nat -> IZR (prefix s N) * bpow radix2 (- Z.of_nat N) <= IZR (prefix s M) * bpow radix2 (- Z.of_nat M).
Proof.
  induction M as [|M IH]; intros N H; [replace N with O by lia; apply Rle_refl|]. destruct (Nat.eq_dec N (S M)) as [->|D]; [apply Rle_refl|]. eapply Rle_trans; [apply IH; lia|].
  cbn [prefix]. replace (bpow radix2 (- Z.of_nat M)) with (2 * bpow radix2 (- Z.of_nat (S M))).
  2:{ change 2 with (bpow radix2 1). rewrite <- bpow_plus. f_equal. lia. }
  rewrite plus_IZR, mult_IZR. pose proof (bpow_gt_0 radix2 (- Z.of_nat (S M))) as P. assert (0 <= IZR (if s M then 1 else 0)) by (apply IZR_le; destruct (s M); lia). nra.
Qed.
Lemma num_lt_arf_loop_steps rng x w : forall iters fuel self prec r, (1 <= prec)%Z -> stale self prec ->
  num_lt_arf_loop rng iters fuel x w self prec = Some r ->
  exists k, (exists a, num_arf rng fuel x (prec * 2 ^ Z.of_nat k) = Some a /\ op_lt (refine_ball a (prec * 2 ^ Z.of_nat k)) (arb_of_arf w) = Some r) /\
    forall j, (j < k)%nat -> exists a, num_arf rng fuel x (prec * 2 ^ Z.of_nat j) = Some a /\ op_lt (refine_ball a (prec * 2 ^ Z.of_nat j)) (arb_of_arf w) = None.
Proof.
  induction iters as [|iters IH]; intros fuel self prec r Hp Hs; cbn [num_lt_arf_loop]; [discriminate|].
  rewrite !num_refine_stale by assumption.
  destruct (num_arf rng fuel x prec) as [a|] eqn:Ea; cbn [option_map]; [|discriminate].
  destruct (op_lt (refine_ball a prec) (arb_of_arf w)) as [r'|] eqn:E.
  - intros [= ->]. exists O. change (2 ^ Z.of_nat 0)%Z with 1%Z. rewrite Z.mul_1_r. split; [exists a; auto|]. intros j Hj. lia.
  - intros H. apply IH in H; [|lia|apply stale_refine; lia]. destruct H as (k & K & L). exists (S k).
    assert (P : forall j, (prec * 2 * 2 ^ Z.of_nat j = prec * 2 ^ Z.of_nat (S j))%Z) by (intros j; rewrite Nat2Z.inj_succ, Z.pow_succ_r by lia; ring).
    rewrite P in K. split; [exact K|]. intros [|j] Hj.
    + exists a. change (2 ^ Z.of_nat 0)%Z with 1%Z. rewrite Z.mul_1_r. auto.
    + rewrite <- P. apply L. lia.
Qed.
(** x < a is decided wrongly exactly if a is between the first digits of x and x, for one of the numbers of digits that are tried, and the last of these digits is a 1. *)
Theorem C61_random_exactly_partial : forall rng seed z v iters fuel a r, rng seed z = true -> (forall i, (i < z)%nat -> rng seed i = false) ->
  num_value rng (RAtom (ARandom seed)) v -> num_lt_arf rng iters fuel (RAtom (ARandom seed)) a = Some r ->
  (r = true <-> v < arf2R a \/ exists k, let last := (z + 2 ^ S k + 1)%nat in
     rng seed last = true /\ IZR (prefix (rng seed) (S last)) * bpow radix2 (- Z.of_nat (S last)) < arf2R a).
Proof.
  intros rng seed z v iters fuel a r H1 H0 Hv H. cbn [num_value atom_value] in Hv. unfold num_lt_arf in H. cbn [num_eq_arf] in H.
  apply num_lt_arf_loop_steps in H; [|lia|apply stale_inf; lia]. destruct H as (k & (m & Em & Hm) & Prev).
  assert (Pk : forall j, (2 * 2 ^ Z.of_nat j = Z.of_nat (2 ^ S j))%Z) by (intros j; rewrite Nat2Z.inj_pow; change (Z.of_nat 2) with 2%Z; rewrite Nat2Z.inj_succ, Z.pow_succ_r by lia; reflexivity).
  assert (Pp : forall j, (1 <= 2 ^ S j)%nat) by (intros j; pose proof (Nat.pow_nonzero 2 (S j)); lia).
  set (s := rng seed) in *. set (t := fun n => IZR (prefix s n) * bpow radix2 (- Z.of_nat n)). set (h := fun n => bpow radix2 (- Z.of_nat n) / 2). set (next := fun j => (z + 2 ^ S j + 1)%nat).
  assert (Hh : forall n, 0 < h n) by (intros n; unfold h; pose proof (bpow_gt_0 radix2 (- Z.of_nat n)); lra).
  assert (Mid : forall j m, num_arf rng fuel (RAtom (ARandom seed)) (2 * 2 ^ Z.of_nat j) = Some m -> arf2R m = t (next j) /\ ball_rad m (2 * 2 ^ Z.of_nat j) = h (next j)).
  { intros j b Eb. rewrite Pk in *. set (p := Z.of_nat (2 ^ S j)) in *. assert (Hp : (1 <= p)%Z) by (unfold p; pose proof (Pp j); lia). cbn [num_arf] in Eb. fold (clamp p) in Eb. rewrite clamp_pos in Eb by exact Hp. cbn [arf_atom] in Eb.
    apply (arf_random_det rng seed z p fuel b H1 H0) in Eb. subst b. assert (Z.to_nat p = 2 ^ S j)%nat as En by (unfold p; apply Nat2Z.id).
    pose proof (rc_range s z p H1 H0) as R. rewrite clamp_pos in R by exact Hp.
    split.
    - unfold arf2R, random_closed, t, next. fold s. cbn [am ae]. rewrite (clamp_pos p Hp). rewrite Z2Nat.inj_add, En by lia. change (Z.to_nat 1) with 1%nat. f_equal; [f_equal; f_equal; lia|f_equal; unfold p; lia].
    - unfold ball_rad. fold s. rewrite arf_expo_mag by (pose proof (pow2_pos p ltac:(lia)); lia). rewrite rc_mag by assumption. unfold h, next. replace (- Z.of_nat z - 2 - p)%Z with (- Z.of_nat (z + 2 ^ S j + 1) + -1)%Z by (unfold p; lia).
      rewrite bpow_plus. change (bpow radix2 (-1)) with (/ 2). unfold Rdiv. reflexivity. }
  assert (Next : forall j, t (S (next j)) = t (next j) + (if s (next j) then h (next j) else 0)).
  { intros j. unfold t, h. cbn [prefix]. set (n := next j). replace (bpow radix2 (- Z.of_nat n)) with (2 * bpow radix2 (- Z.of_nat (S n))).
    2:{ change 2 with (bpow radix2 1). rewrite <- bpow_plus. f_equal. lia. }
    rewrite plus_IZR, mult_IZR. destruct (s n); field. }
  assert (Low : forall j, t (S (next j)) <= v <= t (S (next j)) + h (next j)).
  { intros j. destruct (split_digits s v (S (next j)) Hv) as (u & U & E). pose proof (stream_value_range _ _ U) as B. unfold t, h. set (n := next j) in *.
    replace (bpow radix2 (- Z.of_nat n)) with (2 * bpow radix2 (- Z.of_nat (S n))).
    2:{ change 2 with (bpow radix2 1). rewrite <- bpow_plus. f_equal. lia. }
    pose proof (bpow_gt_0 radix2 (- Z.of_nat (S n))). rewrite E. split; nra. }
  destruct (Mid k m Em) as [Vm Vr]. destruct (op_lt_refine_arf m a (2 * 2 ^ Z.of_nat k)) as (A & B & _). rewrite Vm, Vr in A, B.
  split.
  - intros ->. specialize (A Hm). destruct (Rlt_le_dec v (arf2R a)) as [C|C]; [left; exact C|right]. exists k. cbn zeta. fold (next k). fold (t (S (next k))).
    pose proof (Next k) as Nk. pose proof (Low k) as Lk. destruct (s (next k)); [split; [reflexivity|]; rewrite Nk; exact A|exfalso; lra].
  - intros C. destruct r; [reflexivity|exfalso]. specialize (B Hm). pose proof (Low k) as Lk. pose proof (Next k) as Nk. pose proof (Hh (next k)) as Pk'.
    assert (t (next k) <= t (S (next k))) by (rewrite Nk; destruct (s (next k)); lra). destruct C as [C|(j & Sj & C)]; [lra|]. fold (next j) in Sj, C. fold (t (S (next j))) in C. pose proof (Next j) as Nj. rewrite Sj in Nj.
    destruct (Nat.lt_ge_cases j k) as [J|J].
    + destruct (Prev j J) as (b & Eb & Hb). destruct (Mid j b Eb) as [Vb Vs]. destruct (op_lt_refine_arf b a (2 * 2 ^ Z.of_nat j)) as (_ & _ & D). specialize (D Hb). rewrite Vb, Vs in D. lra.
    + assert (t (next k) <= t (next j)); [|pose proof (Hh (next j)); lra]. apply prefix_grows. unfold next. assert (2 ^ S k <= 2 ^ S j)%nat by (apply Nat.pow_le_mono_r; lia). lia.
Qed.
(** Comparisons of random numbers with integers are right. *)
Theorem C61_random_integers_partial : forall rng seed v iters fuel n r, nonzero_stream (rng seed) -> num_value rng (RAtom (ARandom seed)) v -> v <> IZR n ->
  (num_lt_Z rng iters fuel (RAtom (ARandom seed)) n = Some r -> (r = true <-> v < IZR n)) /\ (num_gt_Z rng iters fuel (RAtom (ARandom seed)) n = Some r -> (r = true <-> v > IZR n)).
Proof.
  intros rng seed v iters fuel n r Nz Hv D. destruct (first_one _ Nz) as (z & H1 & H0).
  assert (L : forall r, num_lt_Z rng iters fuel (RAtom (ARandom seed)) n = Some r -> (r = true <-> v < IZR n)).
  { clear r. intros r H. rewrite (C61_random_exactly_partial rng seed z v iters fuel (arf_of_Z n) r H1 H0 Hv H). rewrite arf_of_Z_spec. split; [|tauto]. intros [C|(k & _ & C)]; [exact C|].
    cbn [num_value atom_value] in Hv. pose proof (stream_value_range _ _ Hv) as R. set (N := S (z + 2 ^ S k + 1)) in *. assert (P : 0 <= IZR (prefix (rng seed) N) * bpow radix2 (- Z.of_nat N)).
    { pose proof (prefix_grows (rng seed) N 0 ltac:(lia)) as G. change (prefix (rng seed) 0) with 0%Z in G. lra. }
    assert (K : 0 < IZR n) by lra. apply lt_IZR in K. assert (1 <= IZR n) by (apply IZR_le; lia). lra. }
  split; [apply L|]. unfold num_gt_Z, num_gt_arf. cbn [num_eq_arf]. fold (num_lt_Z rng iters fuel (RAtom (ARandom seed)) n). destruct (num_lt_Z rng iters fuel (RAtom (ARandom seed)) n) as [c|] eqn:E; [|discriminate]. cbn [option_map]. intros [= <-].
  specialize (L c eq_refl). destruct c; cbn [negb]; split; intros G; try discriminate; try reflexivity.
  - exfalso. pose proof (proj1 L eq_refl). lra.
  - destruct (Rtotal_order v (IZR n)) as [T|[T|T]]; [exfalso; apply L in T; discriminate|contradiction|exact T].
Qed.
(** The first random number has the digits 0.0100110...: it is said to be less than 19/64 = 0.010011. *)
Theorem C61_random_dyadic_refuted : exists v, num_value rand48 (RAtom (ARandom 1337)) v /\ num_lt_arf rand48 1 100 (RAtom (ARandom 1337)) (mkArf 19 (-6)) = Some true /\ arf2R (mkArf 19 (-6)) < v.
Proof.
  destruct (stream_value_exists (rand48 1337)) as [v V]. exists v. split; [exact V|]. split; [c48|].
  unfold arf2R. cbn [am ae]. change (bpow radix2 (-6)) with (/ 64). specialize (V 8%nat). replace (prefix (rand48 1337) 8) with 77%Z in V by c48. change (bpow radix2 (Z.of_nat 8)) with 256 in V. lra.
Qed.
Example C61_exactly_case : rand48 1337 1 = true /\ (forall i, (i < 1)%nat -> rand48 1337 i = false) /\ rand48 1337 (1 + 2 ^ 1 + 1) = true /\
  IZR (prefix (rand48 1337) (S (1 + 2 ^ 1 + 1))) * bpow radix2 (- Z.of_nat (S (1 + 2 ^ 1 + 1))) < arf2R (mkArf 19 (-6)) /\
  nonzero_stream (rand48 1337) /\ num_lt_Z rand48 3 100 (RAtom (ARandom 1337)) 1 = Some true /\ num_gt_Z rand48 3 100 (RAtom (ARandom 1337)) 0 = Some true.
Proof.
  split; [c48|]. split; [intros i Hi; replace i with O by lia; c48|]. split; [c48|]. split; [|split; [exact (rand48_nonzero 1337)|split; c48]].
  replace (prefix (rand48 1337) (S (1 + 2 ^ 1 + 1))) with 9%Z by c48. unfold arf2R. cbn [am ae]. change (bpow radix2 (- Z.of_nat (S (1 + 2 ^ 1 + 1)))) with (/ 32). change (bpow radix2 (-6)) with (/ 64). lra.
Qed.
