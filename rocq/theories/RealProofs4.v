(** Position of the approximations relative to numbers with few bits:
    the core of [cmp] and of the conversion to double. *)
From Coq Require Import ZArith QArith Bool List Reals Lia Lra Psatz Qreals.
From Flocq Require Import Core.
From Verif Require Import Arf Arb SpecArf ArfProofs ArbProofs Real SpecReal RealProofs RealProofs2 RealProofs3.
Import ListNotations.
Open Scope R_scope.

Definition truncation (p : Z) (b : arf) (v : R) : Prop :=
  exists S ge, arf2R b = rndN (p + 1) S /\ S <= v <= S + bpow radix2 ge /\
    (exists m, S = IZR m * bpow radix2 ge) /\
    (forall c, S < c -> c < v -> (ge <= mag radix2 c - p)%Z).

Lemma random_truncation rng seed v fuel prec b :
  nonzero_stream (rng seed) -> stream_value (rng seed) v ->
  arf_random rng fuel seed prec = Some b -> truncation (clamp prec) b v.
Proof.
  intros Hs Hv Hb. destruct (first_one _ Hs) as (z & H1 & H0).
  apply (arf_random_det rng seed z) in Hb; [|assumption|assumption].
  pose proof (rc_error (rng seed) z prec v Hv) as Herr.
  pose proof (rc_pos (rng seed) z prec H1 H0) as Hpos.
  pose proof (rc_range (rng seed) z prec H1 H0) as Hrange.
  pose proof (rc_mag (rng seed) z prec H1 H0) as Hmag.
  rewrite <- Hb in *. pose proof (clamp_nonneg prec) as Hp.
  exists (arf2R b), (- (Z.of_nat z + (clamp prec + 1)))%Z. repeat split; try apply Herr.
  - symmetry. unfold arf2R. apply FLX_multiple; [lia|].
    pose proof (pow2_pos (clamp prec) Hp). lia.
  - exists (am b). unfold arf2R. f_equal. rewrite Hb. reflexivity.
  - intros c Hc _. assert (Hle : (mag radix2 (arf2R b) <= mag radix2 c)%Z) by (apply mag_le; lra). lia.
Qed.

Lemma constr_truncation rng initial e seed v fuel prec b :
  atom_ok rng (AConstr initial e seed) -> atom_value rng (AConstr initial e seed) v ->
  arf_constr rng fuel initial e seed prec = Some b -> truncation (clamp prec) b v.
Proof.
  intros [Hs [m Hm]] [y [Hy ->]]. destruct (first_one _ Hs) as (z & H1 & H0).
  pose proof (clamp_nonneg prec) as Hp. set (p := clamp prec) in *.
  unfold arf_constr. fold (clamp prec). fold p.
  pose proof (stream_value_range _ _ Hy) as Hy01. pose proof (stream_value_pos _ _ Hs Hy) as Hy0.
  pose proof (bpow2_pos (e - 1)) as Hbe.
  set (I := arf2R initial) in *. set (x := I + y * bpow radix2 (e - 1)).
  destruct (Z.ltb_spec 0 (p + 1 - arf_bits initial)) as [Hmiss|Hmiss].
  - set (miss := (p + 1 - arf_bits initial)%Z) in *.
    destruct (arf_random rng fuel seed (miss - 1)) as [add|] eqn:Eadd; [|discriminate].
    apply (arf_random_det rng seed z) in Eadd; [|assumption|assumption].
    cbn [option_map]. intros [= <-].
    assert (Hc : clamp (miss - 1) = (miss - 1)%Z) by (apply clamp_nn; lia).
    pose proof (rc_error (rng seed) z (miss - 1) y Hy) as Herr.
    pose proof (rc_pos (rng seed) z (miss - 1) H1 H0) as Hpos.
    pose proof (rc_range (rng seed) z (miss - 1) H1 H0) as Hrange.
    pose proof (rc_mag (rng seed) z (miss - 1) H1 H0) as Hmag.
    rewrite <- Eadd in Herr, Hpos, Hrange, Hmag. rewrite Hc in Herr, Hrange.
    replace (Z.of_nat z + (miss - 1 + 1))%Z with (Z.of_nat z + miss)%Z in Herr by lia.
    set (t := arf2R add * bpow radix2 (e - 1)).
    set (S := I + t). set (ge := (e - 1 - Z.of_nat z - miss)%Z).
    assert (Hval : arf2R (arf_round NEAR (p + 1) (arf_add (p + 1) NEAR initial (arf_shl add (e - 1)))) = rndN (p + 1) S).
    { rewrite arf_round_spec, arf_add_spec, arf_shl_spec by lia. simpl rndZ. fold I. fold t. fold S.
      apply rndN_idem. lia. }
    assert (HxS : S <= x <= S + bpow radix2 ge).
    { unfold x, S, t, ge. replace (e - 1 - Z.of_nat z - miss)%Z with (- (Z.of_nat z + miss) + (e - 1))%Z by lia.
      rewrite bpow_plus. split; nra. }
    assert (HSm : exists m, S = IZR m * bpow radix2 ge).
    { exists (m * 2 ^ (e - ge) + am add)%Z. unfold S. rewrite Hm. unfold t, arf2R. rewrite plus_IZR, mult_IZR.
      assert (Hge : (ge <= e)%Z) by (unfold ge; lia). rewrite IZR_pow2 by lia.
      rewrite Rmult_plus_distr_r, !Rmult_assoc, <- !bpow_plus. f_equal; f_equal; f_equal; [lia|].
      rewrite Eadd. unfold random_closed. cbn [ae]. rewrite Hc. unfold ge. lia. }
    exists S, ge. split; [exact Hval|]. split; [exact HxS|]. split; [exact HSm|].
    intros c Hc1 Hc2.
    assert (Ht : 0 < t) by (unfold t; nra).
    destruct (Z.eq_dec (am initial) 0) as [Hz|Hnz].
    + assert (HI : I = 0) by (apply arf2R_eq0; exact Hz).
      assert (Hb : arf_bits initial = 0%Z) by (unfold arf_bits; rewrite Hz; reflexivity).
      assert (HS : S = t) by (unfold S; rewrite HI; ring).
      assert (Hle : (mag radix2 S <= mag radix2 c)%Z) by (apply mag_le; lra).
      rewrite HS in Hle. unfold t in Hle. rewrite mag_mult_bpow in Hle by lra. rewrite Hmag in Hle. unfold ge. lia.
    + pose proof (arf_bits_spec initial Hnz) as (Hodd & Hr & Hb1 & HabsI).
      pose proof (odd_exponent_le initial m e Hnz Hm) as HeE.
      set (E := arf_exponent initial) in *. set (D := arf_bits initial) in *.
      fold I in HabsI.
      assert (HIlow : bpow radix2 (E + D - 1) <= Rabs I).
      { rewrite HabsI. replace (E + D - 1)%Z with ((D - 1) + E)%Z by lia. rewrite bpow_plus.
        apply Rmult_le_compat_r; [left; apply bpow2_pos|].
        rewrite <- IZR_pow2 by lia. apply IZR_le. lia. }
      assert (Hlow : bpow radix2 (E + D - 2) <= Rabs c).
      { assert (H2 : bpow radix2 (E + D - 1) = 2 * bpow radix2 (E + D - 2)).
        { replace (E + D - 1)%Z with (1 + (E + D - 2))%Z by lia. rewrite bpow_plus. reflexivity. }
        assert (H3 : bpow radix2 (e - 1) <= bpow radix2 (E + D - 2)) by (apply bpow_le; lia).
        assert (Hye : y * bpow radix2 (e - 1) <= bpow radix2 (e - 1)) by nra.
        destruct (Rle_or_lt 0 I) as [HIp|HIn].
        - rewrite (Rabs_pos_eq I) in HIlow by exact HIp. rewrite Rabs_pos_eq by (unfold S in *; lra).
          pose proof (bpow2_pos (E + D - 2)). unfold S in *. lra.
        - rewrite (Rabs_left I) in HIlow by exact HIn.
          pose proof (bpow2_pos (E + D - 2)).
          rewrite Rabs_left by (unfold x in *; lra). unfold x in *. lra. }
      apply mag_ge_lb in Hlow. unfold ge. lia.
  - cbn [option_map]. intros [= <-].
    assert (Hnz : am initial <> 0%Z).
    { intros C. unfold arf_bits in Hmiss. rewrite C in Hmiss. simpl in Hmiss. lia. }
    pose proof (arf_bits_spec initial Hnz) as (Hodd & Hr & Hb1 & HabsI).
    pose proof (odd_exponent_le initial m e Hnz Hm) as HeE.
    set (E := arf_exponent initial) in *. set (D := arf_bits initial) in *. fold I in HabsI.
    assert (HIlow : bpow radix2 (E + D - 1) <= Rabs I).
    { rewrite HabsI. replace (E + D - 1)%Z with ((D - 1) + E)%Z by lia. rewrite bpow_plus.
      apply Rmult_le_compat_r; [left; apply bpow2_pos|].
      rewrite <- IZR_pow2 by lia. apply IZR_le. lia. }
    assert (Hye : 0 < y * bpow radix2 (e - 1) <= bpow radix2 (e - 1)) by (split; nra).
    assert (Hee : bpow radix2 e = 2 * bpow radix2 (e - 1)).
    { replace e with (1 + (e - 1))%Z at 1 by lia. rewrite bpow_plus. reflexivity. }
    exists I, e. split; [rewrite arf_round_spec by lia; reflexivity|]. split; [unfold x; lra|].
    split; [exists m; exact Hm|]. intros c Hc1 Hc2.
    assert (Hlow : bpow radix2 (E + D - 2) <= Rabs c).
    { assert (H2 : bpow radix2 (E + D - 1) = 2 * bpow radix2 (E + D - 2)).
      { replace (E + D - 1)%Z with (1 + (E + D - 2))%Z by lia. rewrite bpow_plus. reflexivity. }
      assert (H3 : bpow radix2 (e - 1) <= bpow radix2 (E + D - 2)) by (apply bpow_le; lia).
      pose proof (bpow2_pos (E + D - 2)).
      destruct (Rle_or_lt 0 I) as [HIp|HIn].
      - rewrite (Rabs_pos_eq I) in HIlow by exact HIp. rewrite Rabs_pos_eq by lra. lra.
      - rewrite (Rabs_left I) in HIlow by exact HIn. rewrite Rabs_left by (unfold x in *; lra). unfold x in *. lra. }
    apply mag_ge_lb in Hlow. lia.
Qed.

Lemma atom_truncation rng a v fuel prec b : atom_ok rng a -> atom_value rng a v ->
  arf_atom rng fuel a prec = Some b -> truncation (clamp prec) b v.
Proof.
  destruct a as [seed|initial e seed]; intros Hok Hv Hb.
  - exact (random_truncation rng seed v fuel prec b Hok Hv Hb).
  - exact (constr_truncation rng initial e seed v fuel prec b Hok Hv Hb).
Qed.

Lemma fits_mono q q' c : (q <= q')%Z -> fits q c -> fits q' c.
Proof.
  intros Hq. unfold fits. apply generic_inclusion_mag. intros _. unfold FLX_exp. lia.
Qed.

Lemma truncation_position p b v q c : (0 <= p)%Z -> (q <= p)%Z -> truncation p b v -> fits q c ->
  (c < v -> c <= arf2R b) /\ (v <= c -> arf2R b <= c).
Proof.
  intros Hp Hq (S & ge & -> & [HSv HvS] & (m & HSm) & Hge) Hc.
  assert (PH : Prec_gt_0 (p + 1)) by (unfold Prec_gt_0; lia).
  assert (Hc1 : rndN (p + 1) c = c).
  { apply round_generic; auto with typeclass_instances. apply fits_mono with (2 := Hc). lia. }
  assert (Hmono : forall u w, u <= w -> rndN (p + 1) u <= rndN (p + 1) w).
  { intros u w. apply round_le; auto with typeclass_instances. }
  split; intros H.
  - rewrite <- Hc1. apply Hmono. destruct (Rle_or_lt c S) as [|HS]; [assumption|exfalso].
    specialize (Hge c HS H).
    unfold fits, generic_format, F2R in Hc. simpl in Hc.
    set (mc := Ztrunc (scaled_mantissa radix2 (FLX_exp q) c)) in Hc.
    unfold cexp, FLX_exp in Hc.
    assert (HcZ : c = IZR (mc * 2 ^ (mag radix2 c - q - ge)) * bpow radix2 ge).
    { rewrite mult_IZR, IZR_pow2 by lia. rewrite Rmult_assoc, <- bpow_plus, Hc at 1. f_equal. f_equal. lia. }
    pose proof (bpow2_pos ge) as Hbg. set (k := (mc * 2 ^ (mag radix2 c - q - ge))%Z) in HcZ.
    assert (m < k)%Z.
    { apply lt_IZR. rewrite HSm, HcZ in HS. nra. }
    assert (IZR (m + 1) <= IZR k) by (apply IZR_le; lia). rewrite plus_IZR in *.
    rewrite HcZ in H. rewrite HSm in HvS. nra.
  - rewrite <- Hc1. apply Hmono. lra.
Qed.

Lemma rational_position q p k c : (1 <= p)%Z -> (k <= p)%Z -> fits k c ->
  (c <= Q2R q -> c <= arf2R (arf_rational q p)) /\ (Q2R q <= c -> arf2R (arf_rational q p) <= c).
Proof.
  intros Hp Hk Hc. rewrite arf_rational_spec by exact Hp.
  assert (PH : Prec_gt_0 p) by (unfold Prec_gt_0; lia).
  assert (Hc1 : rndN p c = c).
  { apply round_generic; auto with typeclass_instances. apply fits_mono with (2 := Hc). lia. }
  split; intros H; rewrite <- Hc1; apply round_le; auto with typeclass_instances.
Qed.


Lemma num_position rng x v fuel prec b k c : not_product x -> num_ok rng x -> num_value rng x v ->
  (1 <= prec)%Z -> num_arf rng fuel x prec = Some b -> (k <= prec)%Z -> fits k c ->
  (c < v -> c <= arf2R b) /\ (v <= c -> arf2R b <= c).
Proof.
  intros Hnp Hok Hv Hp Hb Hk Hc. unfold num_arf in Hb. fold (clamp prec) in Hb. rewrite clamp_pos in Hb by exact Hp.
  destruct x as [q|a|ms]; [| |destruct Hnp].
  - injection Hb as <-. simpl in Hv. subst v. destruct (rational_position q prec k c Hp Hk Hc) as [A B].
    split; [intros; apply A; lra|exact B].
  - apply (atom_truncation rng a v fuel prec b Hok Hv) in Hb. rewrite clamp_pos in Hb by exact Hp.
    apply (truncation_position prec b v k c); try assumption; lia.
Qed.

(** Strict version for rational numbers. *)
Lemma rational_strict rng q fuel prec b k c : 
  (1 <= prec)%Z -> num_arf rng fuel (RRat q) prec = Some b -> (k <= prec)%Z -> fits k c ->
  (arf2R b < c -> Q2R q < c) /\ (c < arf2R b -> c < Q2R q).
Proof.
  intros Hp Hb Hk Hc. unfold num_arf in Hb. fold (clamp prec) in Hb. rewrite clamp_pos in Hb by exact Hp.
  injection Hb as <-. destruct (rational_position q prec k c Hp Hk Hc) as [A B].
  split; intros H; apply Rnot_le_lt; intros C; [apply A in C|apply B in C]; lra.
Qed.

Lemma arf_fits a : fits (Z.max 1 (arf_bits a)) (arf2R a).
Proof.
  destruct (Z.eq_dec (am a) 0) as [Hz|Hnz].
  - apply arf2R_eq0 in Hz. rewrite Hz. apply generic_format_0.
  - destruct (arf_bits_spec a Hnz) as (_ & Hr & Hb & _).
    rewrite Z.max_r by lia. rewrite arf_mantissa_exponent.
    apply generic_format_FLX. exists (Float radix2 (arf_mantissa a) (arf_exponent a)); [reflexivity|].
    simpl Fnum. replace (Z.pow_pos 2) with (fun p => 2 ^ Z.pos p)%Z by reflexivity.
    change (Z.of_nat 2) with 2%Z. simpl. lia.
Qed.

(** cmp *)
Lemma arb_interval_order_contains (x : arb) lo hi : arb_interval x = Some (lo, hi) ->
  forall p, contains x p -> arf2R lo <= p <= arf2R hi.
Proof. exact (arb_interval_spec x lo hi). Qed.

Lemma cmp_minus rng fuel x v b : not_product x -> num_ok rng x -> num_value rng x v ->
  num_cmp rng fuel x b = Some (-1)%Z -> forall p, contains b p -> v <= p.
Proof.
  intros Hnp Hok Hv H p Hp. unfold num_cmp in H.
  destruct (arb_interval b) as [[lo hi]|] eqn:Ei; [|discriminate].
  pose proof (arb_interval_spec b lo hi Ei p Hp) as [Hlo _].
  set (prec := (Z.max (arf_bits lo) (arf_bits hi) + 1)%Z) in H.
  destruct (num_arf rng fuel x prec) as [a|] eqn:Ea; [|discriminate].
  destruct (arf_ltb a lo) eqn:El.
  2:{ destruct (arf_ltb hi a); discriminate. }
  apply arf_ltb_spec in El.
  assert (Hbits : forall a, (0 <= arf_bits a)%Z).
  { intros u. unfold arf_bits. destruct (am u =? 0)%Z; [lia|]. pose proof (Z.log2_nonneg (Z.abs (arf_mantissa u))). lia. }
  pose proof (Hbits lo). pose proof (Hbits hi).
  destruct (num_position rng x v fuel prec a (Z.max 1 (arf_bits lo)) (arf2R lo) Hnp Hok Hv) as [A _];
    [unfold prec; lia|exact Ea|unfold prec; lia|apply arf_fits|].
  apply Rle_trans with (arf2R lo); [|exact Hlo].
  apply Rnot_lt_le. intros C. apply A in C. lra.
Qed.

Lemma arf_bits_nonneg a : (0 <= arf_bits a)%Z.
Proof. unfold arf_bits. destruct (am a =? 0)%Z; [lia|]. pose proof (Z.log2_nonneg (Z.abs (arf_mantissa a))). lia. Qed.

Lemma cmp_plus rng fuel x v b : not_product x -> num_ok rng x -> num_value rng x v ->
  num_cmp rng fuel x b = Some 1%Z -> forall p, contains b p -> p < v.
Proof.
  intros Hnp Hok Hv H p Hp. unfold num_cmp in H.
  destruct (arb_interval b) as [[lo hi]|] eqn:Ei; [|discriminate].
  pose proof (arb_interval_spec b lo hi Ei p Hp) as [_ Hhi].
  set (prec := (Z.max (arf_bits lo) (arf_bits hi) + 1)%Z) in H.
  destruct (num_arf rng fuel x prec) as [a|] eqn:Ea; [|discriminate].
  destruct (arf_ltb a lo); [discriminate|].
  destruct (arf_ltb hi a) eqn:El; [|discriminate].
  apply arf_ltb_spec in El.
  pose proof (arf_bits_nonneg lo). pose proof (arf_bits_nonneg hi).
  destruct (num_position rng x v fuel prec a (Z.max 1 (arf_bits hi)) (arf2R hi) Hnp Hok Hv) as [_ A];
    [unfold prec; lia|exact Ea|unfold prec; lia|apply arf_fits|].
  apply Rle_lt_trans with (arf2R hi); [exact Hhi|].
  apply Rnot_le_lt. intros C. apply A in C. lra.
Qed.

(** For rational numbers the answer -1 is strict as well. *)
Lemma cmp_minus_rational rng fuel q b : 
  num_cmp rng fuel (RRat q) b = Some (-1)%Z -> forall p, contains b p -> Q2R q < p.
Proof.
  intros H p Hp. unfold num_cmp in H.
  destruct (arb_interval b) as [[lo hi]|] eqn:Ei; [|discriminate].
  pose proof (arb_interval_spec b lo hi Ei p Hp) as [Hlo _].
  set (prec := (Z.max (arf_bits lo) (arf_bits hi) + 1)%Z) in H.
  destruct (num_arf rng fuel (RRat q) prec) as [a|] eqn:Ea; [|discriminate].
  destruct (arf_ltb a lo) eqn:El.
  2:{ destruct (arf_ltb hi a); discriminate. }
  apply arf_ltb_spec in El. pose proof (arf_bits_nonneg lo). pose proof (arf_bits_nonneg hi).
  destruct (rational_strict rng q fuel prec a (Z.max 1 (arf_bits lo)) (arf2R lo)) as [A _];
    [unfold prec; lia|exact Ea|unfold prec; lia|apply arf_fits|].
  apply Rlt_le_trans with (arf2R lo); [apply A; exact El|exact Hlo].
Qed.

(** The conversion to double is faithful: no double lies strictly between the
    number and the result. *)

Lemma double_fits c : is_double c -> fits 53 c.
Proof. apply generic_inclusion_mag. intros _. unfold FLX_exp, FLT_exp. lia. Qed.

Lemma double_faithful rng fuel x v d : not_product x -> num_ok rng x -> num_value rng x v ->
  num_double rng fuel x = Some d ->
  is_double (arf2R d) /\
  forall c, is_double c -> (c < v -> c <= arf2R d) /\ (v <= c -> arf2R d <= c).
Proof.
  intros Hnp Hok Hv H. unfold num_double in H.
  destruct (num_arf rng fuel x ARF_DOUBLE_PRECISION) as [a|] eqn:Ea; [|discriminate].
  injection H as <-. rewrite arf_to_double_spec.
  assert (PH : Prec_gt_0 53) by (unfold Prec_gt_0; lia).
  split; [apply generic_format_round; auto with typeclass_instances|].
  intros c Hc.
  assert (Hc1 : round radix2 (FLT_exp (-1074) 53) ZnearestE c = c) by (apply round_generic; auto with typeclass_instances).
  destruct (num_position rng x v fuel ARF_DOUBLE_PRECISION a 53 c Hnp Hok Hv ltac:(unfold ARF_DOUBLE_PRECISION; lia) Ea
              ltac:(unfold ARF_DOUBLE_PRECISION; lia) (double_fits c Hc)) as [A B].
  split; intros H; rewrite <- Hc1; apply round_le; auto with typeclass_instances.
Qed.
