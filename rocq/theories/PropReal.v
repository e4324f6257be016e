(** Properties C06-C09, C11, C54: digits and comparisons of real numbers.
    [rng] is any source of random bits; [rand48] is the generator of the code. *)
From Coq Require Import ZArith QArith Bool List Reals Lia Lra Qreals.
From Flocq Require Import Core.
From Verif Require Import Arf Arb SpecArf ArfProofs ArbProofs Real SpecReal RealProofs RealProofs2 RealProofs3 RealProofs4 RealProofs5 RealProofs6 RealProofs7 RealRefuted Fast48.
Import ListNotations.
Open Scope R_scope.

(** Every number denotes exactly one real number. *)
Theorem C06_value_unique : forall rng x, exists! v, num_value rng x v.
Proof. exact num_value_unique_exists. Qed.

(** arf(prec) returns. *)
Theorem C06_arf_returns : forall rng x prec, num_ok rng x ->
  exists fuel0 a, forall fuel, (fuel0 <= fuel)%nat -> num_arf rng fuel x prec = Some a.
Proof. exact num_arf_returns. Qed.

Theorem C06_rational_accurate : forall rng fuel q prec a, (1 <= prec)%Z -> ~ (q == 0)%Q ->
  num_arf rng fuel (RRat q) prec = Some a -> accurate prec a (Q2R q).
Proof. exact num_rational_accurate. Qed.

(** For a rational number it is the number with [prec] bits that is nearest to it (ties to even): exactly 0 for 0. *)
Theorem C06_rational_nearest : forall rng fuel q prec a, (1 <= prec)%Z -> num_arf rng fuel (RRat q) prec = Some a ->
  arf2R a = round radix2 (FLX_exp prec) ZnearestE (Q2R q) /\ ((q == 0)%Q <-> arf2R a = 0).
Proof.
  intros rng fuel q prec a Hp H. unfold num_arf in H. fold (clamp prec) in H. rewrite clamp_pos in H by exact Hp. injection H as <-.
  assert (V : Prec_gt_0 prec) by (unfold Prec_gt_0; lia).
  assert (E : arf2R (arf_rational q prec) = round radix2 (FLX_exp prec) ZnearestE (Q2R q)).
  { apply arf_rational_spec. exact Hp. }
  split; [exact E|]. rewrite E. split.
  - intros Z0. apply Qeq_eqR in Z0. rewrite Z0. unfold Q2R. simpl. rewrite Rmult_0_l. apply round_0. exact _.
  - intros Z0. apply eq_0_round_0_FLX in Z0; [|exact _|exact _]. apply eqR_Qeq. rewrite Z0. unfold Q2R. simpl. ring.
Qed.

Theorem C06_random_accurate : forall rng fuel a v prec b, atom_ok rng a -> num_value rng (RAtom a) v -> (1 <= prec)%Z ->
  num_arf rng fuel (RAtom a) prec = Some b -> accurate prec b v.
Proof. exact num_atom_accurate. Qed.

(** Products reach the requested accuracy up to one bit ... *)
Theorem C06_product_accurate : forall rng fuel ms v prec a, num_ok rng (RProd ms) -> num_value rng (RProd ms) v ->
  (1 <= prec)%Z -> num_arf rng fuel (RProd ms) prec = Some a -> accurate (prec - 1) a v.
Proof. exact num_prod_accurate. Qed.

(** ... and miss that bit for some numbers. *)
Theorem C57_product_accurate_refuted : exists ms prec a v, num_ok rand48 (RProd ms) /\ num_value rand48 (RProd ms) v /\
  (2 <= prec)%Z /\ num_arf rand48 100 (RProd ms) prec = Some a /\ ~ accurate prec a v.
Proof. exact prod_accuracy_refuted. Qed.

Example C06_example : num_ok rand48 (RAtom (AConstr (mkArf 5 (-1)) (-1) 1337)) /\
  num_arf rand48 100 (RAtom (AConstr (mkArf 5 (-1)) (-1) 1337)) 5 = Some (mkArf 41 (-4)) /\
  num_arf rand48 100 (RAtom (ARandom 1337)) 5 = Some (mkArf 38 (-7)).
Proof.
  split; [split; [exists 1%nat; vm_compute; reflexivity|exists 5%Z; reflexivity]|]. split; vm_compute; reflexivity.
Qed.

(** * C07 arb and refine *)
Theorem C07_relative_accuracy : forall rng fuel x prec b, (0 <= prec)%Z -> num_arb rng fuel x prec = Some b ->
  arf2R (mid b) <> 0 -> rel_accuracy_bits b = prec.
Proof. exact num_arb_accuracy. Qed.

(** The ball of the number 0 is centered at it, with a radius of 2^(-2-prec). *)
Theorem C07_rational_zero : forall rng fuel prec, (0 <= prec)%Z ->
  exists b, num_arb rng fuel (RRat 0) prec = Some b /\ forall v, contains b v <-> Rabs v <= bpow radix2 (-2 - prec).
Proof.
  intros rng fuel prec Hp. exists (mkArb (mkArf 0 0) (Some (mkArf 1 (- 2 - prec)))). split.
  - unfold num_arb, num_refine. destruct (Z.leb_spec prec (rel_accuracy_bits arb_zero_pm_inf)) as [C|C].
    + exfalso. change (rel_accuracy_bits arb_zero_pm_inf) with (- ARF_PREC_EXACT)%Z in C. unfold ARF_PREC_EXACT in C. lia.
    + unfold num_arf, arf_rational, round_q, option_map, refine_ball. cbn -[Z.sub Z.add Z.leb]. do 4 f_equal. lia.
  - intros v. unfold contains, arf2R. cbn. unfold F2R. cbn -[bpow]. rewrite Rmult_0_l, Rminus_0_r, Rmult_1_l. reflexivity.
Qed.

Theorem C07_refine_keeps : forall rng fuel x b prec, (prec <= rel_accuracy_bits b)%Z -> num_refine rng fuel x b prec = Some b.
Proof. exact num_refine_keeps. Qed.

(** The number is within twice the radius of the midpoint (four times for products). *)
Theorem C07_twice_radius : forall rng fuel x v prec b r, not_product x -> num_ok rng x -> num_value rng x v ->
  (1 <= prec)%Z -> num_arb rng fuel x prec = Some b -> rad b = Some r -> Rabs (v - arf2R (mid b)) <= 2 * arf2R r.
Proof. exact num_arb_twice. Qed.
Theorem C07_product_radius : forall rng fuel x v prec b r, num_ok rng x -> num_value rng x v ->
  (1 <= prec)%Z -> num_arb rng fuel x prec = Some b -> rad b = Some r -> Rabs (v - arf2R (mid b)) <= 4 * arf2R r.
Proof. exact num_arb_four. Qed.

(** The ball need not contain the number: 1/3 at precision 3, the first random number at precision 64. *)
Theorem C58_contains_rational_refuted : exists b, num_arb rand48 0 (RRat (1 # 3)) 3 = Some b /\ ~ contains b (1 / 3).
Proof. exact arb_rational_counterexample. Qed.
Theorem C58_contains_random_refuted : exists v b, num_value rand48 (RAtom (ARandom 1337)) v /\
  num_arb rand48 100 (RAtom (ARandom 1337)) 64 = Some b /\ ~ contains b v.
Proof. exact arb_random_refuted. Qed.

Example C07_example : num_ok rand48 (RAtom (ARandom 1337)) /\
  num_arb rand48 100 (RAtom (ARandom 1337)) 2 = Some (mkArb (mkArf 4 (-4)) (Some (mkArf 1 (-5)))).
Proof. split; [exists 1%nat|]; vm_compute; reflexivity. Qed.

(** * C08 cmp *)
Theorem C08_cmp_below : forall rng fuel x v b, not_product x -> num_ok rng x -> num_value rng x v ->
  num_cmp rng fuel x b = Some (-1)%Z -> forall p, contains b p -> v <= p.
Proof. exact cmp_minus. Qed.
Theorem C08_cmp_above : forall rng fuel x v b, not_product x -> num_ok rng x -> num_value rng x v ->
  num_cmp rng fuel x b = Some 1%Z -> forall p, contains b p -> p < v.
Proof. exact cmp_plus. Qed.
Theorem C08_cmp_below_rational : forall rng fuel q b,
  num_cmp rng fuel (RRat q) b = Some (-1)%Z -> forall p, contains b p -> Q2R q < p.
Proof. exact cmp_minus_rational. Qed.
(** For products also -1 can be wrong: a product above the number 1/1024. *)
Theorem C59_cmp_product_refuted : exists ms v p, num_ok rand48 (RProd ms) /\ num_value rand48 (RProd ms) v /\
  num_cmp rand48 100 (RProd ms) (arb_of_arf p) = Some (-1)%Z /\ arf2R p < v.
Proof. exact cmp_product_refuted. Qed.
(** 0 does not mean that the number is in the ball. *)
Theorem C59_cmp_zero_refuted : exists b, num_cmp rand48 0 (RRat (1 # 5)) b = Some 0%Z /\ ~ contains b (1 / 5).
Proof. exact (ex_intro _ _ cmp_zero_counterexample). Qed.
Example C08_example :
  num_cmp rand48 100 (RAtom (ARandom 1337)) (arb_of_arf (mkArf 1 (-1))) = Some (-1)%Z /\
  num_cmp rand48 100 (RAtom (ARandom 1337)) (arb_of_arf (mkArf 1 (-3))) = Some 1%Z.
Proof. split; vm_compute; reflexivity. Qed.

(** * C09 conversion to double *)
(** The result is one of the two doubles around the number. *)
Theorem C09_double_faithful : forall rng fuel x v d, not_product x -> num_ok rng x -> num_value rng x v ->
  num_double rng fuel x = Some d ->
  is_double (arf2R d) /\ forall c, is_double c -> (c < v -> c <= arf2R d) /\ (v <= c -> arf2R d <= c).
Proof. exact double_faithful. Qed.
(** The result is the closest double of a number within 2^-53 (products included). *)
Theorem C09_double_error : forall rng fuel x v d, num_ok rng x -> num_value rng x v ->
  num_double rng fuel x = Some d ->
  exists a, Rabs (v - a) <= Rabs a * bpow radix2 (-53) /\ arf2R d = round radix2 (FLT_exp (-1074) 53) ZnearestE a.
Proof. exact double_error. Qed.
Theorem C60_double_random_refuted : exists v d c, num_value rand48 (RAtom (ARandom 1340)) v /\
  num_double rand48 100 (RAtom (ARandom 1340)) = Some d /\ is_double c /\ Rabs (v - c) < Rabs (v - arf2R d).
Proof. exact double_random_refuted. Qed.
Theorem C60_double_rational_refuted : exists q v d c, num_value rand48 (RRat q) v /\
  num_double rand48 0 (RRat q) = Some d /\ is_double c /\ Rabs (v - c) < Rabs (v - arf2R d).
Proof. exact double_rational_refuted. Qed.
Example C09_example : exists d, num_double rand48 100 (RAtom (ARandom 1337)) = Some d /\ num_ok rand48 (RAtom (ARandom 1337)).
Proof. eexists. split; [vm_compute; reflexivity|exists 1%nat; vm_compute; reflexivity]. Qed.

(** * C11 comparisons *)
(** They terminate for numbers with different values. *)
Theorem C11_lt_terminates : forall rng x y v w, num_ok rng x -> num_ok rng y -> num_value rng x v -> num_value rng y w -> v <> w ->
  exists iters0 fuel0 r, forall iters fuel, (iters0 <= iters)%nat -> (fuel0 <= fuel)%nat -> num_lt rng iters fuel x y = Some r.
Proof. exact num_lt_terminates. Qed.
Theorem C11_lt_arf_terminates : forall rng x v w, num_ok rng x -> num_value rng x v -> v <> arf2R w ->
  exists iters0 fuel0 r, forall iters fuel, (iters0 <= iters)%nat -> (fuel0 <= fuel)%nat -> num_lt_arf rng iters fuel x w = Some r.
Proof. exact num_lt_arf_terminates. Qed.
Theorem C11_lt_rational_terminates : forall rng mag_up x v q, mag_up_within mag_up -> num_ok rng x -> num_value rng x v -> v <> Q2R q ->
  exists iters0 fuel0 r, forall iters fuel, (iters0 <= iters)%nat -> (fuel0 <= fuel)%nat -> num_lt_q rng mag_up iters fuel x q = Some r.
Proof. exact num_lt_q_terminates. Qed.
Theorem C11_gt_arf_terminates : forall rng x v w, num_ok rng x -> num_value rng x v -> v <> arf2R w ->
  exists iters0 fuel0 r, forall iters fuel, (iters0 <= iters)%nat -> (fuel0 <= fuel)%nat -> num_gt_arf rng iters fuel x w = Some r.
Proof. exact num_gt_arf_terminates. Qed.
Theorem C11_gt_rational_terminates : forall rng mag_up x v q, mag_up_within mag_up -> num_ok rng x -> num_value rng x v -> v <> Q2R q ->
  exists iters0 fuel0 r, forall iters fuel, (iters0 <= iters)%nat -> (fuel0 <= fuel)%nat -> num_gt_q rng mag_up iters fuel x q = Some r.
Proof. exact num_gt_q_terminates. Qed.

(** Right for two rationals, two random numbers, a rational number and a rational, the sign of any number. *)
Theorem C11_rationals_right : forall rng iters fuel p q r, num_lt rng iters fuel (RRat p) (RRat q) = Some r ->
  (r = true <-> Q2R p < Q2R q).
Proof. exact num_lt_rationals. Qed.
Theorem C11_randoms_right : forall rng iters fuel s t v w r,
  nonzero_stream (rng s) -> nonzero_stream (rng t) -> stream_value (rng s) v -> stream_value (rng t) w -> v <> w ->
  num_lt rng iters fuel (RAtom (ARandom s)) (RAtom (ARandom t)) = Some r -> (r = true <-> v < w).
Proof. exact num_lt_randoms. Qed.
Theorem C11_rational_rational_right : forall rng mag_up iters fuel p q,
  (exists r, num_lt_q rng mag_up iters fuel (RRat p) q = Some r /\ (r = true <-> Q2R p < Q2R q)) /\
  (exists r, num_gt_q rng mag_up iters fuel (RRat p) q = Some r /\ (r = true <-> Q2R p > Q2R q)) /\
  (num_eq_q (RRat p) q = true <-> Q2R p = Q2R q).
Proof.
  exact (fun rng mag_up iters fuel p q => conj (num_lt_q_rational rng mag_up iters fuel p q)
    (conj (num_gt_q_rational rng mag_up iters fuel p q) (num_eq_q_rational p q))).
Qed.
Theorem C11_equality_with_arf_right : forall p a, num_eq_arf (RRat p) a = true <-> Q2R p = arf2R a.
Proof. exact num_eq_arf_rational. Qed.
Theorem C11_sign_right : forall rng iters fuel x v w r, num_ok rng x -> num_value rng x v -> v <> 0 -> arf2R w = 0 ->
  num_lt_arf rng iters fuel x w = Some r -> (r = true <-> v < 0).
Proof. exact num_lt_arf_zero. Qed.
(** In general the answer is right if the balls contain the numbers (which C07 refutes) ... *)
Theorem C61_sound_if_contained_partial : forall rng iters fuel x y v w r,
  (forall p b, (2 <= p)%Z -> num_arb rng fuel x p = Some b -> contains b v) ->
  (forall p b, (2 <= p)%Z -> num_arb rng fuel y p = Some b -> contains b w) ->
  rnum_eqb x y = false -> num_lt rng iters fuel x y = Some r -> (r = true <-> v < w).
Proof. exact num_lt_sound_if. Qed.
(** ... and wrong answers are only possible for numbers that are close. *)
Theorem C11_wrong_only_if_close : forall rng iters fuel x y v w r, not_product x -> not_product y ->
  num_ok rng x -> num_ok rng y -> num_value rng x v -> num_value rng y w -> v <> 0 -> w <> 0 ->
  rnum_eqb x y = false -> num_lt rng iters fuel x y = Some r ->
  (r = true -> v <= w + (Rabs v + Rabs w) / 6) /\ (r = false -> w <= v + (Rabs v + Rabs w) / 6).
Proof. exact num_lt_close. Qed.
Theorem C11_rational_wrong_only_if_close : forall rng mag_up x v q, mag_up_within mag_up -> num_ok rng x -> num_value rng x v ->
  forall iters fuel r, not_product x -> v <> 0 -> num_lt_q rng mag_up iters fuel x q = Some r ->
  (r = true -> v <= Q2R q + Rabs v * bpow radix2 (-64)) /\ (r = false -> Q2R q <= v + Rabs v * bpow radix2 (-64)).
Proof. exact num_lt_q_close. Qed.
Theorem C11_rational_gt_wrong_only_if_close : forall rng mag_up x v q, mag_up_within mag_up -> num_ok rng x -> num_value rng x v ->
  forall iters fuel r, not_product x -> v <> 0 -> num_gt_q rng mag_up iters fuel x q = Some r ->
  (r = true -> Q2R q <= v + Rabs v * bpow radix2 (-64)) /\ (r = false -> v <= Q2R q + Rabs v * bpow radix2 (-64)).
Proof. exact num_gt_q_close. Qed.
Theorem C11_arf_wrong_only_if_close : forall rng iters fuel x v w, not_product x -> num_ok rng x -> num_value rng x v -> v <> 0 ->
  (forall r, num_lt_arf rng iters fuel x w = Some r -> (r = true -> v <= arf2R w + Rabs v / 6) /\ (r = false -> arf2R w <= v + Rabs v / 6)) /\
  (forall r, num_gt_arf rng iters fuel x w = Some r -> (r = true -> arf2R w <= v + Rabs v / 6) /\ (r = false -> v <= arf2R w + Rabs v / 6)).
Proof. intros rng i f x v w Np Hx Hv V0. split; intros r H; [exact (num_lt_arf_close rng i f x v w r Np Hx Hv V0 H)|exact (num_gt_arf_close rng i f x v w r Np Hx Hv V0 H)]. Qed.

(** Wrong answers: [21/2 < 11] is false, [1/3 < 11/32] is false, ... *)
Theorem C61_lt_integer_refuted : num_lt_Z rand48 1 0 (RRat (21 # 2)) 11 = Some false /\ num_gt_Z rand48 1 0 (RRat (21 # 2)) 11 = Some true /\ 21 / 2 < 11.
Proof. exact (conj (proj1 lt_integer_counterexample) gt_integer_counterexample). Qed.
Theorem C61_lt_arf_refuted : num_lt_arf rand48 1 0 (RRat (1 # 3)) (mkArf 11 (-5)) = Some false /\ 1 / 3 < arf2R (mkArf 11 (-5)).
Proof. exact lt_arf_counterexample. Qed.
Theorem C61_lt_rational_random_refuted : exists w, num_value rand48 (RAtom (ARandom 38)) w /\
  num_lt rand48 10 100 (RRat (1 # 3)) (RAtom (ARandom 38)) = Some false /\ 1 / 3 < w.
Proof. exact lt_rational_random_refuted. Qed.
(** [x * y < x] is false although [0 < y < 1]. *)
Theorem C61_lt_product_refuted : exists v w,
  num_value rand48 (RProd [(ARandom 1337, 1%nat); (ARandom 1351, 1%nat)]) v /\ num_value rand48 (RAtom (ARandom 1337)) w /\
  num_lt rand48 10 200 (RProd [(ARandom 1337, 1%nat); (ARandom 1351, 1%nat)]) (RAtom (ARandom 1337)) = Some false /\ v < w.
Proof. exact lt_product_refuted. Qed.
Theorem C61_lt_q_refuted : exists v q, num_value rand48 (RAtom (ARandom 1337)) v /\ forall mag_up,
  (forall r, 0 <= arf2R r -> arf2R r <= arf2R (mag_up r) <= 11 / 10 * arf2R r) ->
  num_lt_q rand48 mag_up 1 100 (RAtom (ARandom 1337)) q = Some true /\ Q2R q < v.
Proof. exact lt_q_refuted. Qed.

Example C11_example : num_lt rand48 10 100 (RAtom (ARandom 1338)) (RAtom (ARandom 1337)) = Some true /\
  num_lt rand48 10 100 (RRat (1 # 7)) (RRat (1 # 6)) = Some true /\
  nonzero_stream (rand48 1337) /\ nonzero_stream (rand48 1338) /\ mag_up_within (fun r => r).
Proof.
  split; [c48|]. split; [c48|].
  split; [exists 1%nat; c48|]. split; [exists 3%nat; c48|].
  intros r H. lra.
Qed.

(** * C54 digits of a random number do not depend on the precision *)
Theorem C54_prefix : forall rng seed fuel fuel' p q a b, nonzero_stream (rng seed) -> (0 <= p <= q)%Z ->
  num_arf rng fuel (RAtom (ARandom seed)) p = Some a -> num_arf rng fuel' (RAtom (ARandom seed)) q = Some b ->
  am a = (am b / 2 ^ (q - p))%Z /\ ae a = (ae b + (q - p))%Z /\ (2 ^ p <= am a < 2 ^ (p + 1))%Z.
Proof. exact random_prefix. Qed.
Theorem C54_range : forall rng seed v, nonzero_stream (rng seed) -> num_value rng (RAtom (ARandom seed)) v -> 0 < v <= 1.
Proof. exact random_range. Qed.
Theorem C54_deterministic : forall rng x prec fuel fuel' a b,
  num_arf rng fuel x prec = Some a -> num_arf rng fuel' x prec = Some b -> a = b.
Proof. exact num_arf_det. Qed.
Example C54_example : num_arf rand48 100 (RAtom (ARandom 1337)) 3 = Some (mkArf 9 (-5)) /\
  num_arf rand48 100 (RAtom (ARandom 1337)) 5 = Some (mkArf 38 (-7)).
Proof. split; vm_compute; reflexivity. Qed.
