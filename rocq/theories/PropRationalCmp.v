(** C59 and C61 for rational numbers: exactly when cmp is right, and exactly when < and > with floats are. *)
From Coq Require Import ZArith QArith Bool List Reals Lia Lra.
From Flocq Require Import Core.
From Verif Require Import Arf Arb SpecArf ArfProofs ArbProofs Real SpecReal RealProofs RealProofs2 RealProofs3 RealProofs4 RealProofs5 Rand48Proofs Fast48 SpecLoops PropExact.
Open Scope R_scope.

(** * Rounding to even, at even numbers *)
Lemma nearest_below x m : (ZnearestE x < 2 * m)%Z <-> x < IZR (2 * m) - / 2.
Proof.
  pose proof (Znearest_half (fun z => negb (Z.even z)) x) as H. apply Rabs_le_inv in H. split; intros K.
  - apply Rnot_le_lt. intros L. assert (N : IZR (ZnearestE x) <= IZR (2 * m - 1)) by (apply IZR_le; lia). rewrite minus_IZR in N.
    assert (E : x = IZR (2 * m - 1) + / 2) by (rewrite minus_IZR; lra). assert (F : Zfloor x = (2 * m - 1)%Z) by (apply Zfloor_imp; rewrite plus_IZR, E; lra).
    unfold Znearest in K. rewrite F in K. rewrite Rcompare_Eq in K by lra. replace (Z.even (2 * m - 1)) with false in K by (rewrite Z.even_sub, Z.even_mul; reflexivity). cbn [negb] in K.
    assert (C : (2 * m - 1 < Zceil x)%Z) by (apply lt_IZR; eapply Rlt_le_trans; [|apply Zceil_ub]; lra). lia.
  - apply lt_IZR. lra.
Qed.

(** A number with fewer bits is an even number of units, or far away. *)
Lemma even_units p w k : (2 <= p)%Z -> fits (p - 1) w -> bpow radix2 (k - 1) <= Rabs w -> exists m, w = IZR (2 * m) * bpow radix2 (k - p).
Proof.
  intros Hp F L. assert (E : forall u, fits (p - 1) u -> bpow radix2 (k - 1) <= u -> exists m, u = IZR (2 * m) * bpow radix2 (k - p)).
  { intros u Fu Lu. destruct (fits_multiple (p - 1) u (k - 1) ltac:(lia) Fu Lu) as (m & ->). exists m. replace (k - 1 + 1 - (p - 1))%Z with (1 + (k - p))%Z by ring. rewrite bpow_plus, mult_IZR. change (bpow radix2 1) with 2. rewrite <- Rmult_assoc, (Rmult_comm (IZR m) 2). reflexivity. }
  destruct (Rle_lt_dec 0 w) as [P|N].
  - rewrite Rabs_pos_eq in L by exact P. exact (E w F L).
  - rewrite Rabs_left in L by exact N. destruct (E (- w)) as (m & Em); [apply generic_format_opp, F|exact L|]. exists (- m)%Z. replace (2 * - m)%Z with (- (2 * m))%Z by ring. rewrite opp_IZR. lra.
Qed.
Lemma rounded_below p v w k : (1 <= p)%Z -> bpow radix2 (k - 1) <= Rabs v < bpow radix2 k -> w = 0 \/ (2 <= p)%Z /\ fits (p - 1) w ->
  round radix2 (FLX_exp p) ZnearestE v < w <-> v < w - bpow radix2 (k - p) / 2.
Proof.
  intros Hp Hv Hw. rewrite (round_at_exponent p k v Hp Hv). set (c := bpow radix2 (k - p)). assert (Pc : 0 < c) by apply bpow_gt_0. set (x := v * bpow radix2 (p - k)).
  assert (X : v = x * c). { unfold x, c. rewrite Rmult_assoc, <- bpow_plus. replace (p - k + (k - p))%Z with 0%Z by ring. change (bpow radix2 0) with 1. ring. }
  assert (Even : forall m, w = IZR (2 * m) * c -> IZR (ZnearestE x) * c < w <-> v < w - c / 2).
  { intros m ->. split; intros K.
    - apply Rmult_lt_reg_r in K; [|exact Pc]. apply lt_IZR in K. apply nearest_below in K. rewrite X. replace (IZR (2 * m) * c - c / 2) with ((IZR (2 * m) - / 2) * c) by field. apply Rmult_lt_compat_r; assumption.
    - rewrite X in K. replace (IZR (2 * m) * c - c / 2) with ((IZR (2 * m) - / 2) * c) in K by field. apply Rmult_lt_reg_r in K; [|exact Pc]. apply nearest_below in K. apply Rmult_lt_compat_r; [exact Pc|]. apply IZR_lt, K. }
  destruct Hw as [Z0|[P2 F]]; [apply (Even 0%Z); rewrite Z0; change (2 * 0)%Z with 0%Z; ring|].
  destruct (Rle_lt_dec (bpow radix2 (k - 1)) (Rabs w)) as [L|L]; [destruct (even_units p w k P2 F L) as (m & Em); exact (Even m Em)|].
  (* smaller than v by magnitude *)
  assert (D : Rabs w <= bpow radix2 (k - 1) - c). { pose proof (fits_below (p - 1) (Rabs w) (k - 1) ltac:(lia) (generic_format_abs _ _ _ F) L) as D. replace (k - 1 - (p - 1))%Z with (k - p)%Z in D by ring. exact D. }
  pose proof (Rabs_le_inv _ _ D) as [D1 D2]. assert (Bk : bpow radix2 (k - 1) = IZR (2 ^ (p - 1)) * c). { rewrite IZR_pow2 by lia. unfold c. rewrite <- bpow_plus. f_equal. ring. }
  assert (Vx : Rabs v = Rabs x * c) by (rewrite X, Rabs_mult, (Rabs_pos_eq c) by lra; reflexivity).
  assert (Lx : IZR (2 ^ (p - 1)) <= Rabs x). { destruct Hv as [Hv _]. rewrite Bk, Vx in Hv. apply (Rmult_le_reg_r c); lra. }
  destruct (Rle_lt_dec 0 x) as [P|N].
  - rewrite Rabs_pos_eq in Lx by exact P. assert (G : (2 ^ (p - 1) <= ZnearestE x)%Z) by (rewrite <- (Zrnd_IZR ZnearestE (2 ^ (p - 1))); apply Zrnd_le; [exact _|exact Lx]). apply IZR_le in G.
    apply (Rmult_le_compat_r c) in G; [|lra]. apply (Rmult_le_compat_r c) in Lx; [|lra]. rewrite <- X in Lx. split; intros K; exfalso; lra.
  - rewrite Rabs_left in Lx by exact N. assert (G : (ZnearestE x <= - 2 ^ (p - 1))%Z) by (rewrite <- (Zrnd_IZR ZnearestE (- 2 ^ (p - 1))); apply Zrnd_le; [exact _|rewrite opp_IZR; lra]). apply IZR_le in G. rewrite opp_IZR in G.
    apply (Rmult_le_compat_r c) in G; [|lra]. apply (Rmult_le_compat_r c) in Lx; [|lra]. split; intros _; lra.
Qed.
Lemma rounded_above p v w k : (1 <= p)%Z -> bpow radix2 (k - 1) <= Rabs v < bpow radix2 k -> w = 0 \/ (2 <= p)%Z /\ fits (p - 1) w ->
  w < round radix2 (FLX_exp p) ZnearestE v <-> w + bpow radix2 (k - p) / 2 < v.
Proof.
  intros Hp Hv Hw. pose proof (rounded_below p (- v) (- w) k Hp) as R. rewrite Rabs_Ropp, round_NE_opp in R. specialize (R Hv).
  assert (Hw' : - w = 0 \/ (2 <= p)%Z /\ fits (p - 1) (- w)) by (destruct Hw as [->|[P F]]; [left; ring|right; split; [exact P|apply generic_format_opp, F]]).
  specialize (R Hw'). split; intros K; [assert (- v < - w - bpow radix2 (k - p) / 2) by (apply R; lra)|assert (- round radix2 (FLX_exp p) ZnearestE v < - w) by (apply R; lra)]; lra.
Qed.
Lemma end_fits w p : (arf_bits w <= p - 1)%Z -> arf2R w = 0 \/ (2 <= p)%Z /\ fits (p - 1) (arf2R w).
Proof.
  intros H. destruct (Req_dec (arf2R w) 0) as [E|N]; [left; exact E|right]. assert (B : (1 <= arf_bits w)%Z).
  { unfold arf_bits. destruct (Z.eqb_spec (am w) 0) as [E|_]; [exfalso; apply N; unfold arf2R; rewrite E; ring|]. pose proof (Z.log2_nonneg (Z.abs (arf_mantissa w))). lia. }
  split; [lia|]. apply (fits_more (Z.max 1 (arf_bits w))); [lia|apply arf_fits].
Qed.

(** cmp with a rational number: half a unit in the last place is added to both ends of the ball, where the
    last place of the number is one bit further than those of the ends. *)
Theorem C59_rational_exactly_partial : forall rng fuel (q : Q) k b lo hi c, bpow radix2 (k - 1) <= Rabs (Q2R q) < bpow radix2 k ->
  arb_interval b = Some (lo, hi) -> arf2R lo <= arf2R hi -> num_cmp rng fuel (RRat q) b = Some c ->
  let margin := bpow radix2 (k - Z.max (arf_bits lo) (arf_bits hi) - 2) in
  (c = (-1)%Z <-> Q2R q < arf2R lo - margin) /\ (c = 0%Z <-> arf2R lo - margin <= Q2R q <= arf2R hi + margin) /\ (c = 1%Z <-> arf2R hi + margin < Q2R q).
Proof.
  intros rng fuel q k b lo hi c Hq Hi Ord Hc margin. unfold num_cmp in Hc. rewrite Hi in Hc. set (p := (Z.max (arf_bits lo) (arf_bits hi) + 1)%Z) in *.
  pose proof (arf_bits_nonneg lo). pose proof (arf_bits_nonneg hi). assert (Hp : (1 <= p)%Z) by (unfold p; lia).
  cbn [num_arf] in Hc. fold (clamp p) in Hc. rewrite clamp_pos in Hc by exact Hp.
  pose proof (arf_rational_spec q p Hp) as A. assert (M : bpow radix2 (k - p) / 2 = margin).
  { unfold margin. replace (k - p)%Z with (1 + (k - Z.max (arf_bits lo) (arf_bits hi) - 2))%Z by (unfold p; ring). rewrite bpow_plus. change (bpow radix2 1) with 2. field. }
  pose proof (rounded_below p (Q2R q) (arf2R lo) k Hp Hq (end_fits lo p ltac:(unfold p; lia))) as Lo. pose proof (rounded_above p (Q2R q) (arf2R hi) k Hp Hq (end_fits hi p ltac:(unfold p; lia))) as Up.
  rewrite <- A in Lo, Up. rewrite M in Lo, Up. rewrite <- arf_ltb_spec in Lo, Up. assert (Pm : 0 < margin) by apply bpow_gt_0.
  destruct (arf_ltb (arf_rational q p) lo) eqn:E1.
  - injection Hc as <-. assert (K : Q2R q < arf2R lo - margin) by (apply Lo; reflexivity). split; [split; [intros _; exact K|reflexivity]|]. split; (split; [discriminate|]); intros K'; exfalso; lra.
  - assert (K : ~ Q2R q < arf2R lo - margin) by (intros K; apply Lo in K; discriminate). destruct (arf_ltb hi (arf_rational q p)) eqn:E2; injection Hc as <-.
    + assert (K2 : arf2R hi + margin < Q2R q) by (apply Up; reflexivity). split; [split; [discriminate|intros K'; exfalso; lra]|]. split; [split; [discriminate|intros K'; exfalso; lra]|]. split; [intros _; exact K2|reflexivity].
    + assert (K2 : ~ arf2R hi + margin < Q2R q) by (intros K2; apply Up in K2; discriminate). split; [split; [discriminate|intros K'; exfalso; lra]|]. split; [split; [intros _; lra|reflexivity]|]. split; [discriminate|intros K'; exfalso; lra].
Qed.
(** The number 0 is always classified correctly. *)
Theorem C59_number_zero_partial : forall rng fuel (q : Q) b lo hi c, Q2R q = 0 -> arb_interval b = Some (lo, hi) -> arf2R lo <= arf2R hi -> num_cmp rng fuel (RRat q) b = Some c ->
  (c = (-1)%Z <-> 0 < arf2R lo) /\ (c = 0%Z <-> arf2R lo <= 0 <= arf2R hi) /\ (c = 1%Z <-> arf2R hi < 0).
Proof.
  intros rng fuel q b lo hi c Hq Hi Ord Hc. unfold num_cmp in Hc. rewrite Hi in Hc. set (p := (Z.max (arf_bits lo) (arf_bits hi) + 1)%Z) in *.
  pose proof (arf_bits_nonneg lo). pose proof (arf_bits_nonneg hi). assert (Hp : (1 <= p)%Z) by (unfold p; lia).
  cbn [num_arf] in Hc. fold (clamp p) in Hc. rewrite clamp_pos in Hc by exact Hp. pose proof (arf_rational_spec q p Hp) as A. rewrite Hq, round_0 in A by exact _.
  pose proof (arf_ltb_spec (arf_rational q p) lo) as Lo. pose proof (arf_ltb_spec hi (arf_rational q p)) as Up. rewrite A in Lo, Up.
  destruct (arf_ltb (arf_rational q p) lo).
  - injection Hc as <-. assert (K : 0 < arf2R lo) by (apply Lo; reflexivity). split; [split; [intros _; exact K|reflexivity]|]. split; (split; [discriminate|]); intros K'; exfalso; lra.
  - assert (K : ~ 0 < arf2R lo) by (intros K; apply Lo in K; discriminate). destruct (arf_ltb hi (arf_rational q p)); injection Hc as <-.
    + assert (K2 : arf2R hi < 0) by (apply Up; reflexivity). split; [split; [discriminate|intros K'; exfalso; lra]|]. split; [split; [discriminate|intros K'; exfalso; lra]|]. split; [intros _; exact K2|reflexivity].
    + assert (K2 : ~ arf2R hi < 0) by (intros K2; apply Up in K2; discriminate). split; [split; [discriminate|intros K'; exfalso; lra]|]. split; [split; [intros _; lra|reflexivity]|]. split; [discriminate|intros K'; exfalso; lra].
Qed.
(** 1/5 is not 3/16, but close enough: the margin is 1/64. It is greater than 11/64, and less than 7/32 by exactly that margin. *)
Example C59_rational_case : bpow radix2 (-2 - 1) <= Rabs (Q2R (1 # 5)) < bpow radix2 (-2) /\ bpow radix2 (-2 - Z.max 2 2 - 2) = 1 / 64 /\
  arb_interval (arb_of_arf (mkArf 3 (-4))) = Some (mkArf 3 (-4), mkArf 3 (-4)) /\ arf_bits (mkArf 3 (-4)) = 2%Z /\
  num_cmp rand48 0 (RRat (1 # 5)) (arb_of_arf (mkArf 3 (-4))) = Some 0%Z /\ num_cmp rand48 0 (RRat (1 # 5)) (arb_of_arf (mkArf 11 (-6))) = Some 1%Z /\
  num_cmp rand48 0 (RRat (1 # 5)) (arb_of_arf (mkArf 7 (-5))) = Some (-1)%Z /\ num_cmp rand48 0 (RRat (0 # 1)) (arb_of_arf (mkArf 1 (-500))) = Some (-1)%Z.
Proof.
  split; [|split; [|repeat split; vm_compute; reflexivity]].
  - unfold Q2R. cbn [Qnum Qden]. change (bpow radix2 (-2 - 1)) with (/ 8). change (bpow radix2 (-2)) with (/ 4). rewrite Rabs_pos_eq by lra. lra.
  - change (bpow radix2 (-2 - Z.max 2 2 - 2)) with (/ 64). lra.
Qed.
