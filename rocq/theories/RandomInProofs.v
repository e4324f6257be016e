From Coq Require Import ZArith QArith Bool List Reals Qreals Lra Lia.
From Flocq Require Import Core.
From Flocq Require Relative.
From Verif Require Import Arf Arb Real SpecArf ArfProofs SpecReal RealProofs RealProofs2 RealProofs3 RealProofs4 RandomIn SpecRandom.
Import ListNotations.
Open Scope R_scope.

(** * random(lower, upper) *)
Lemma scaled m e f : (f <= e)%Z -> IZR m * bpow radix2 e = IZR (m * 2 ^ (e - f)) * bpow radix2 f.
Proof. intros H. rewrite mult_IZR, IZR_pow2, Rmult_assoc, <- bpow_plus by lia. do 2 f_equal. lia. Qed.
Lemma random_in_spec ur l u s r : urandomm_ok ur -> random_in ur l u s = Returns r ->
  (r = RAtom (ARandom s) /\ arf2R l = 0 /\ arf2R u = 1) \/
  (exists m e, r = RAtom (AConstr (mkArf m e) e s) /\ arf2R l <= IZR m * bpow radix2 e /\ IZR (m + 1) * bpow radix2 e <= arf2R u).
Proof.
  intros Hu. unfold random_in. destruct (arf_eqb l (arf_of_Z 0) && arf_eqb u (arf_of_Z 1)) eqn:E01.
  - apply andb_true_iff in E01. destruct E01 as [E0 E1]. apply arf_eqb_spec in E0, E1. rewrite arf_of_Z_spec in E0, E1. intros H. injection H as <-. left. auto.
  - destruct (arf_leb u l) eqn:L; [discriminate|]. apply arf_leb_false in L.
    destruct (arf_mantissa_odd l) as [El _]. destruct (arf_mantissa_odd u) as [Eu _].
    set (lm := arf_mantissa l) in *. set (le := arf_exponent l) in *. set (um := arf_mantissa u) in *. set (ue := arf_exponent u) in *.
    assert (K : forall lm' um' e, arf2R l = IZR lm' * bpow radix2 e -> arf2R u = IZR um' * bpow radix2 e ->
      Returns (RAtom (AConstr (arf_of_mant_exp (ur s (um' - lm')%Z + lm')%Z e) e s)) = Returns r -> exists m e, r = RAtom (AConstr (mkArf m e) e s) /\ arf2R l <= IZR m * bpow radix2 e /\ IZR (m + 1) * bpow radix2 e <= arf2R u).
    { intros lm' um' e Hl Hup H. injection H as <-. assert (P := bpow2_pos e).
      assert (D : (0 < um' - lm')%Z). { rewrite Hl, Hup in L. apply Rmult_lt_reg_r in L; [|exact P]. apply lt_IZR in L. lia. }
      destruct (Hu s _ D) as [U1 U2]. exists (ur s (um' - lm')%Z + lm')%Z, e. split; [reflexivity|]. rewrite Hl, Hup. split; apply Rmult_le_compat_r; try lra; apply IZR_le; lia. }
    intros H. right. destruct (Z.ltb_spec le ue) as [C|C].
    + cbn iota in H. rewrite Z.ltb_irrefl in H. apply (K lm (um * 2 ^ (ue - le))%Z le); [exact El|rewrite <- scaled by lia; exact Eu|exact H].
    + destruct (Z.ltb_spec ue le) as [C'|C'].
      * apply (K (lm * 2 ^ (le - ue))%Z um ue); [rewrite <- scaled by lia; exact El|exact Eu|exact H].
      * assert (E : le = ue) by lia. apply (K lm um le); [exact El|rewrite E; exact Eu|exact H].
Qed.
Lemma random_in_throws ur l u s : random_in ur l u s = Throws <-> arf2R u <= arf2R l.
Proof.
  unfold random_in. destruct (arf_eqb l (arf_of_Z 0) && arf_eqb u (arf_of_Z 1)) eqn:E01.
  - apply andb_true_iff in E01. destruct E01 as [E0 E1]. apply arf_eqb_spec in E0, E1. rewrite arf_of_Z_spec in E0, E1. split; [discriminate|lra].
  - destruct (arf_leb u l) eqn:L.
    + apply arf_leb_spec in L. tauto.
    + apply arf_leb_false in L. destruct (_ <? _)%Z; destruct (_ <? _)%Z; split; try discriminate; lra.
Qed.
Lemma random_in_returns ur l u s : arf2R l < arf2R u -> exists r, random_in ur l u s = Returns r.
Proof.
  intros H. destruct (random_in ur l u s) as [r| |] eqn:E; [eauto| |].
  - apply random_in_throws in E. lra.
  - exfalso. unfold random_in in E. destruct (_ && _); [discriminate|]. destruct (arf_leb u l); [discriminate|]. destruct (_ <? _)%Z; destruct (_ <? _)%Z; discriminate.
Qed.
Lemma random_in_ok rng ur l u s r : urandomm_ok ur -> nonzero_stream (rng s) -> random_in ur l u s = Returns r -> num_ok rng r.
Proof.
  intros Hu Hs H. destruct (random_in_spec ur l u s r Hu H) as [(-> & _)|(m & e & -> & _)]; [exact Hs|]. split; [exact Hs|]. exists m. reflexivity.
Qed.
Lemma random_in_range rng ur l u s r v : urandomm_ok ur -> nonzero_stream (rng s) -> random_in ur l u s = Returns r -> num_value rng r v -> arf2R l < v <= arf2R u.
Proof.
  intros Hu Hs H V. destruct (random_in_spec ur l u s r Hu H) as [(-> & -> & ->)|(m & e & -> & B1 & B2)].
  - cbn in V. pose proof (stream_value_range _ _ V). pose proof (stream_value_pos _ _ Hs V). lra.
  - destruct V as (y & Hy & ->). pose proof (stream_value_range _ _ Hy). pose proof (stream_value_pos _ _ Hs Hy). assert (P := bpow2_pos (e - 1)).
    unfold arf2R at 2 3. cbn [am ae]. rewrite plus_IZR in B2. assert (D : bpow radix2 e = 2 * bpow radix2 (e - 1)). { replace e with (1 + (e - 1))%Z at 1 by lia. rewrite bpow_plus. reflexivity. }
    rewrite D in *. split; nra.
Qed.
(** Only the whole unit interval gives a number that can be equal to the upper bound. *)
Lemma random_in_strict rng ur l u s r v : urandomm_ok ur -> nonzero_stream (rng s) -> random_in ur l u s = Returns r -> num_value rng r v -> ~ (arf2R l = 0 /\ arf2R u = 1) -> v < arf2R u.
Proof.
  intros Hu Hs H V N. destruct (random_in_spec ur l u s r Hu H) as [(-> & L0 & U1)|(m & e & -> & B1 & B2)]; [tauto|].
  destruct V as (y & Hy & ->). pose proof (stream_value_range _ _ Hy). assert (P := bpow2_pos (e - 1)).
  unfold arf2R at 1. cbn [am ae]. rewrite plus_IZR in B2. assert (D : bpow radix2 e = 2 * bpow radix2 (e - 1)). { replace e with (1 + (e - 1))%Z at 1 by lia. rewrite bpow_plus. reflexivity. }
  rewrite D in *. nra.
Qed.
(** The approximations are between the bounds, up to a final rounding. *)
Lemma random_in_arf rng ur l u s r fuel prec b : urandomm_ok ur -> nonzero_stream (rng s) -> random_in ur l u s = Returns r -> (1 <= prec)%Z ->
  num_arf rng fuel r prec = Some b -> exists z, arf2R l <= z <= arf2R u /\ arf2R b = rounded (prec + 1) NEAR z.
Proof.
  intros Hu Hs H Hp. destruct (random_in_spec ur l u s r Hu H) as [(-> & L0 & U1)|(m & e & -> & B1 & B2)].
  { unfold num_arf. destruct (Z.ltb_spec prec 1) as [C|_]; [lia|]. cbn [arf_atom]. intros Hb. destruct (first_one _ Hs) as (z & H1 & H0).
    apply (arf_random_det rng s z) in Hb; [|assumption|assumption]. destruct (stream_value_exists (rng s)) as [y Hy]. pose proof (stream_value_range _ _ Hy) as R01.
    pose proof (rc_error (rng s) z prec y Hy) as Er. pose proof (rc_pos (rng s) z prec H1 H0) as Po. pose proof (rc_range (rng s) z prec H1 H0) as Ra. rewrite <- Hb in Er, Po, Ra.
    exists (arf2R b). split; [lra|]. unfold rounded. cbn [rndZ]. symmetry. unfold arf2R. rewrite clamp_pos in Ra by exact Hp. apply FLX_multiple; [lia|].
    pose proof (pow2_pos prec ltac:(lia)). lia. }
  clear H.
  unfold num_arf. destruct (Z.ltb_spec prec 1) as [C|_]; [lia|]. cbn [arf_atom]. unfold arf_constr. destruct (Z.ltb_spec prec 1) as [C|_]; [lia|].
  destruct (first_one _ Hs) as (z & H1 & H0). assert (P := bpow2_pos (e - 1)). rewrite plus_IZR in B2. assert (D : bpow radix2 e = 2 * bpow radix2 (e - 1)). { replace e with (1 + (e - 1))%Z at 1 by lia. rewrite bpow_plus. reflexivity. }
  set (i := mkArf m e) in *. assert (Hi : arf2R i = IZR m * bpow radix2 e) by reflexivity.
  destruct (Z.ltb_spec 0 (prec + 1 - arf_bits i)) as [M|M].
  - destruct (arf_random rng fuel s (prec + 1 - arf_bits i - 1)) as [add|] eqn:Ea; [|discriminate]. cbn [option_map]. intros E. injection E as <-.
    apply (arf_random_det rng s z) in Ea; [|assumption|assumption]. destruct (stream_value_exists (rng s)) as [y Hy]. pose proof (stream_value_range _ _ Hy) as R01.
    pose proof (rc_error (rng s) z (prec + 1 - arf_bits i - 1) y Hy) as Er. pose proof (rc_pos (rng s) z (prec + 1 - arf_bits i - 1) H1 H0) as Po. rewrite <- Ea in Er, Po.
    exists (arf2R i + arf2R add * bpow radix2 (e - 1)). split.
    + rewrite Hi, D in *. split; nra.
    + rewrite arf_round_spec, arf_add_spec, arf_shl_spec by lia. unfold rounded. cbn [rndZ]. apply rndN_idem. lia.
  - cbn [option_map]. intros E. injection E as <-. exists (arf2R i). split; [rewrite Hi, D in *; nra|]. apply arf_round_spec. lia.
Qed.

(** * Doubles *)
Definition F := FLT_exp (-1074) 53.
Local Instance p53 : Prec_gt_0 53. Proof. reflexivity. Qed.
Local Instance vF : Valid_exp F. Proof. unfold F. exact _. Qed.
Local Instance mF : Monotone_exp F. Proof. unfold F. exact _. Qed.
Local Notation dsucc := (succ radix2 F).
Local Notation dpred := (pred radix2 F).
Lemma power_of_two a : am a <> 0%Z -> (Z.abs (arf_mantissa a) = 1%Z <-> Rabs (arf2R a) = bpow radix2 (arf_expo a - 1)).
Proof.
  intros Ha. assert (Na : arf2R a <> 0) by (intros C; apply arf2R_eq0 in C; contradiction). destruct (arf_mantissa_odd a) as (E & O & _). specialize (O Na). pose proof (arf_expo_spec a Ha) as [L U].
  rewrite E, Rabs_mult, <- abs_IZR, (Rabs_pos_eq (bpow _ _)) in * by apply bpow_ge_0. split.
  - intros M. rewrite M, Rmult_1_l in *. apply lt_bpow in U. apply le_bpow in L. f_equal. lia.
  - intros M. set (t := (arf_expo a - 1)%Z) in *. set (x := arf_exponent a) in *. destruct (Z.le_gt_cases x t) as [C|C].
    + rewrite <- (Rmult_1_l (bpow radix2 t)), (scaled 1 t x C), Z.mul_1_l in M. apply Rmult_eq_reg_r in M; [|apply bpow_neq0]. apply eq_IZR in M.
      destruct (Z.eq_dec t x) as [->|N]; [rewrite Z.sub_diag in M; exact M|]. exfalso. replace (t - x)%Z with (1 + (t - x - 1))%Z in M by lia. rewrite Z.pow_add_r in M by lia.
      assert (Z.odd (Z.abs (arf_mantissa a)) = true) by (destruct (Z.abs_eq_or_opp (arf_mantissa a)) as [-> | ->]; [|rewrite Z.odd_opp]; exact O). rewrite M, Z.odd_mul in H. discriminate.
    + exfalso. assert (1 <= IZR (Z.abs (arf_mantissa a))). { apply IZR_le. destruct (Z.eq_dec (arf_mantissa a) 0) as [Z0|Z0]; [rewrite Z0 in O; discriminate|lia]. }
      assert (bpow radix2 t < bpow radix2 x) by (apply bpow_lt; exact C). pose proof (bpow2_pos t). nra.
Qed.
Lemma away_ulp a : bpow radix2 (away_pos a) = ulp radix2 F (arf2R a).
Proof.
  unfold away_pos. destruct (Z.eqb_spec (am a) 0) as [E|E].
  - replace (arf2R a) with 0 by (symmetry; apply arf2R_eq0; exact E). unfold F. rewrite ulp_FLT_0 by exact _. reflexivity.
  - rewrite ulp_neq_0 by (intros C; apply arf2R_eq0 in C; contradiction). unfold cexp, F, FLT_exp. rewrite <- arf_expo_mag by exact E. reflexivity.
Qed.
Lemma towards_pred a : (am a < 0)%Z -> arf2R a + bpow radix2 (towards_pos a) = dsucc (arf2R a).
Proof.
  intros Ha. assert (Na : arf2R a < 0). { unfold arf2R. assert (IZR (am a) < 0) by (apply IZR_lt; lia). pose proof (bpow2_pos (ae a)). nra. }
  unfold succ. destruct (Rle_bool_spec 0 (arf2R a)) as [C|C]; [lra|]. unfold pred_pos. assert (E0 : am a <> 0%Z) by lia. pose proof (power_of_two a E0) as W. rewrite mag_opp. rewrite <- arf_expo_mag by exact E0.
  rewrite Rabs_left in W by exact Na. unfold towards_pos. destruct (Z.eqb_spec (Z.abs (arf_mantissa a)) 1) as [M|M].
  - rewrite Req_bool_true by (apply W; exact M). unfold F, FLT_exp. replace (arf_expo a - 1 - 53)%Z with (arf_expo a - 54)%Z by lia. ring.
  - rewrite Req_bool_false by (intros C'; apply M, W, C'). rewrite away_ulp, ulp_opp. ring.
Qed.
Lemma finite_double_spec a b : finite_double a = Some b -> b = a.
Proof. unfold finite_double. destruct (arf_leb _ _); [discriminate|]. intros H. injection H as <-. reflexivity. Qed.
Lemma next_up_value a : arf2R (arf_add_exact a (mkArf 1 (if (0 <=? am a)%Z then away_pos a else towards_pos a))) = dsucc (arf2R a).
Proof.
  rewrite arf_add_exact_spec. unfold arf2R at 2. cbn [am ae]. rewrite Rmult_1_l. destruct (Z.leb_spec 0 (am a)) as [C|C].
  - rewrite away_ulp. unfold succ. rewrite Rle_bool_true; [reflexivity|]. unfold arf2R. apply Rmult_le_pos; [apply IZR_le; lia|apply bpow_ge_0].
  - apply towards_pred, C.
Qed.
Lemma next_up_spec a b : next_up a = Some b -> arf2R b = dsucc (arf2R a).
Proof. unfold next_up. intros H. apply finite_double_spec in H. subst b. apply next_up_value. Qed.
Lemma next_down_spec a b : next_down a = Some b -> arf2R b = dpred (arf2R a).
Proof.
  unfold next_down. destruct (next_up (arf_neg a)) as [c|] eqn:E; [|discriminate]. intros H. injection H as <-. rewrite arf_neg_spec, (next_up_spec _ _ E), arf_neg_spec. unfold pred. reflexivity.
Qed.
Lemma max_format : generic_format radix2 F DBL_MAX.
Proof. apply generic_format_FLT. exists (Float radix2 (2 ^ 53 - 1) 971); [reflexivity|cbn; lia|cbn; lia]. Qed.
Lemma max_lt : DBL_MAX < bpow radix2 1024.
Proof. unfold DBL_MAX. replace 1024%Z with (53 + 971)%Z by lia. rewrite bpow_plus. apply Rmult_lt_compat_r; [apply bpow_gt_0|]. rewrite <- IZR_pow2 by lia. apply IZR_lt. lia. Qed.
Lemma next_up_finite a : generic_format radix2 F (arf2R a) -> Rabs (arf2R a) < DBL_MAX -> exists b, next_up a = Some b.
Proof.
  intros Fa B. unfold next_up. set (b := arf_add_exact _ _). assert (V : arf2R b = dsucc (arf2R a)) by apply next_up_value. unfold finite_double.
  assert (L : arf_leb (mkArf 1 1024) (arf_abs b) = false); [|rewrite L; eauto]. apply arf_leb_false. rewrite arf_abs_spec, V. unfold arf2R at 2. cbn [am ae]. rewrite Rmult_1_l.
  apply Rabs_lt_inv in B. apply Rabs_lt. pose proof max_lt as M. assert (dsucc (arf2R a) <= DBL_MAX) by (apply succ_le_lt; [exact _|exact Fa|exact max_format|lra]). pose proof (succ_ge_id radix2 F (arf2R a)). lra.
Qed.
Lemma next_down_finite a : generic_format radix2 F (arf2R a) -> Rabs (arf2R a) < DBL_MAX -> exists b, next_down a = Some b.
Proof.
  intros Fa B. destruct (next_up_finite (arf_neg a)) as [b Hb]; [rewrite arf_neg_spec; apply generic_format_opp, Fa|rewrite arf_neg_spec, Rabs_Ropp; exact B|]. exists (arf_neg b). unfold next_down. rewrite Hb. reflexivity.
Qed.

(** * Between neighbours *)
Lemma not_format x t : generic_format radix2 F x -> dpred x < t < x -> ~ generic_format radix2 F t.
Proof. intros Fx [L U] Ft. pose proof (pred_ge_gt radix2 F t x Ft Fx U). lra. Qed.
Lemma up_between x t : generic_format radix2 F x -> dpred x < t < x -> round radix2 F Zceil t = x.
Proof. intros Fx B. apply round_UP_eq; [exact _|exact Fx|lra]. Qed.
Lemma down_between x t : generic_format radix2 F x -> dpred x < t < x -> round radix2 F Zfloor t = dpred x.
Proof. intros Fx B. rewrite <- (pred_UP_eq_DN radix2 F t (not_format x t Fx B)), (up_between x t Fx B). reflexivity. Qed.
Lemma gap_ulp x t : generic_format radix2 F x -> dpred x < t < x -> ulp radix2 F t = x - dpred x.
Proof.
  intros Fx B. pose proof (round_UP_DN_ulp radix2 F t (not_format x t Fx B)) as E. rewrite (up_between x t Fx B), (down_between x t Fx B) in E. lra.
Qed.
Lemma between_nonzero x t : generic_format radix2 F x -> dpred x < t < x -> t <> 0.
Proof. intros Fx B ->. apply (not_format x 0 Fx B). apply generic_format_0. Qed.
Lemma gap_large x t : generic_format radix2 F x -> dpred x < t < x -> bpow radix2 (mag radix2 t - 53) <= x - dpred x.
Proof.
  intros Fx B. rewrite <- (gap_ulp x t Fx B), ulp_neq_0 by exact (between_nonzero x t Fx B). apply bpow_le. unfold cexp, F, FLT_exp. lia.
Qed.
Lemma flx_between p x t : (1 <= p)%Z -> generic_format radix2 F x -> dpred x < t < x -> Rabs (rounded p NEAR t - t) <= / 2 * bpow radix2 (53 - p) * (x - dpred x).
Proof.
  intros Hp Fx B. unfold rounded. cbn [rndZ]. assert (Prec_gt_0 p) by (unfold Prec_gt_0; lia). eapply Rle_trans; [apply error_le_half_ulp; exact _|]. rewrite ulp_neq_0 by exact (between_nonzero x t Fx B).
  unfold cexp, FLX_exp. replace (mag radix2 t - p)%Z with ((53 - p) + (mag radix2 t - 53))%Z by lia. rewrite bpow_plus, <- Rmult_assoc. apply Rmult_le_compat_l; [pose proof (bpow2_pos (53 - p)); lra|]. exact (gap_large x t Fx B).
Qed.
Lemma gap_relative x : generic_format radix2 F x -> dpred x < x -> Rabs x * bpow radix2 (-54) <= x - dpred x /\ Rabs (dpred x) * bpow radix2 (-54) <= x - dpred x.
Proof.
  intros Fx G. assert (Fp : generic_format radix2 F (dpred x)) by (apply generic_format_pred; [exact _|exact Fx]).
  assert (B : dpred x < (x + dpred x) / 2 < x) by lra. pose proof (gap_large x _ Fx B) as L. set (t := (x + dpred x) / 2) in *. pose proof (bpow_mag_gt radix2 t) as M.
  assert (E : bpow radix2 (mag radix2 t) = bpow radix2 53 * bpow radix2 (mag radix2 t - 53)) by (rewrite <- bpow_plus; f_equal; lia).
  assert (E2 : bpow radix2 53 * bpow radix2 (-54) = / 2) by (rewrite <- bpow_plus; reflexivity). pose proof (bpow2_pos 53) as P53. pose proof (bpow2_pos (-54)) as P54.
  assert (T : Rabs t * bpow radix2 (-54) <= / 2 * (x - dpred x)).
  { rewrite E in M. apply Rle_trans with (bpow radix2 53 * bpow radix2 (mag radix2 t - 53) * bpow radix2 (-54)); [apply Rmult_le_compat_r; lra|].
    replace (bpow radix2 53 * bpow radix2 (mag radix2 t - 53) * bpow radix2 (-54)) with (bpow radix2 53 * bpow radix2 (-54) * bpow radix2 (mag radix2 t - 53)) by ring. rewrite E2. lra. }
  (* zero is not strictly between *)
  assert (Z0 : 0 <= dpred x \/ x <= 0). { destruct (Rle_or_lt 0 (dpred x)); [auto|]. right. destruct (Rle_or_lt x 0); [assumption|]. exfalso. apply (between_nonzero x 0 Fx); lra. }
  assert (A : Rabs x <= 2 * Rabs t /\ Rabs (dpred x) <= 2 * Rabs t).
  { unfold t. destruct Z0 as [Z0|Z0]; [rewrite !Rabs_pos_eq by lra|rewrite !Rabs_left1 by lra]; lra. }
  destruct A as [A1 A2]. split; eapply Rle_trans; try (apply Rmult_le_compat_r; [lra|eassumption]); lra.
Qed.
Lemma pred_lt x : generic_format radix2 F x -> dpred x < x.
Proof. intros Fx. destruct (Req_dec x 0) as [->|N]; [|apply pred_lt_id, N]. rewrite pred_0. unfold F. rewrite ulp_FLT_0 by exact _. pose proof (bpow2_pos (-1074)). lra. Qed.
Lemma nearest_below x t : generic_format radix2 F x -> (dpred x + x) / 2 < t <= x -> round radix2 F ZnearestE t = x.
Proof.
  intros Fx [L U]. pose proof (pred_lt x Fx). destruct (Req_dec t x) as [->|N]; [apply round_generic; [exact _|exact Fx]|]. assert (B : dpred x < t < x) by lra.
  rewrite (round_N_eq_UP radix2 F (fun z => negb (Z.even z)) t); [exact (up_between x t Fx B)|]. rewrite (up_between x t Fx B), (down_between x t Fx B). lra.
Qed.
Lemma round_opp_F t : round radix2 F ZnearestE (- t) = - round radix2 F ZnearestE t.
Proof. apply round_NE_opp. Qed.
Lemma nearest_above x t : generic_format radix2 F x -> x <= t < (x + dsucc x) / 2 -> round radix2 F ZnearestE t = x.
Proof.
  intros Fx B. enough (E : round radix2 F ZnearestE (- t) = - x) by (rewrite round_opp_F in E; lra). apply nearest_below; [apply generic_format_opp, Fx|]. rewrite pred_opp. lra.
Qed.

(** * random(double) *)
(** The bounds computed with 64 bits are close to a third of the way to the neighbour. *)
Lemma rel_err t : Rabs (rounded 64 NEAR t - t) <= bpow radix2 (-64) * Rabs t.
Proof.
  unfold rounded. cbn [rndZ]. assert (P : Prec_gt_0 64) by reflexivity. pose proof (Relative.relative_error_N_FLX radix2 64 P (fun z => negb (Z.even z)) t) as H. 
  assert (E : bpow radix2 (- (64) + 1) = 2 * bpow radix2 (- (64))) by (change 2 with (bpow radix2 1); rewrite <- bpow_plus; reflexivity). rewrite E in H.
  eapply Rle_trans; [exact H|]. apply Rmult_le_compat_r; [apply Rabs_pos|]. change (-64)%Z with (- (64))%Z. lra.
Qed.
Lemma third_spec a b c g : third a b = Some c -> (Rabs (arf2R a) + Rabs (arf2R b)) * bpow radix2 (-54) <= 4 * g ->
  Rabs (arf2R c - (arf2R a + arf2R b) / 3) <= g / 128.
Proof.
  unfold third. intros H G. pose proof (arf_div_spec 64 NEAR (arf_add 64 NEAR a b) (arf_of_Z 3) ltac:(lia)) as D. rewrite H in D. rewrite arf_of_Z_spec in D.
  rewrite arf_add_spec in D by lia. set (s := arf2R a + arf2R b) in *. pose proof (rel_err s) as R1. fold (rounded 64 NEAR s) in D. set (s' := rounded 64 NEAR s) in *. pose proof (rel_err (s' / 3)) as R2.
  assert (V : arf2R c = rounded 64 NEAR (s' / 3)) by (apply D). rewrite V. set (c' := rounded 64 NEAR (s' / 3)) in *.
  assert (A : Rabs s <= Rabs (arf2R a) + Rabs (arf2R b)) by apply Rabs_triang.
  assert (E : bpow radix2 (-64) = bpow radix2 (-54) * / 1024) by (change (/ 1024) with (bpow radix2 (-10)); rewrite <- bpow_plus; reflexivity). rewrite E in *. set (p := bpow radix2 (-54)) in *. assert (Pp : 0 < p) by apply bpow2_pos.
  assert (Pe : p <= 1) by (change 1 with (bpow radix2 0); apply bpow_le; lia).
  assert (S1 : p * Rabs s <= 4 * g). { eapply Rle_trans; [|exact G]. rewrite Rmult_comm. apply Rmult_le_compat_r; lra. }
  assert (B1 : Rabs (s' - s) <= 4 * g / 1024) by lra.
  assert (G0 : 0 <= g). { pose proof (Rabs_pos s). assert (0 <= p * Rabs s) by (apply Rmult_le_pos; lra). lra. }
  assert (A' : Rabs (s' / 3) <= Rabs s / 3 + 4 * g / 3072). { unfold Rdiv at 1. rewrite Rabs_mult, (Rabs_pos_eq (/ 3)) by lra. assert (Rabs s' <= Rabs s + 4 * g / 1024) by (replace s' with (s + (s' - s)) by ring; eapply Rle_trans; [apply Rabs_triang|lra]). lra. }
  assert (B2 : Rabs (c' - s' / 3) <= 4 * g / 1024).
  { eapply Rle_trans; [exact R2|]. apply Rle_trans with (p * / 1024 * (Rabs s / 3 + 4 * g / 3072)); [apply Rmult_le_compat_l; [lra|exact A']|]. assert (p * g <= g) by nra. lra. }
  replace (c' - s / 3) with ((c' - s' / 3) + (s' - s) / 3) by field. eapply Rle_trans; [apply Rabs_triang|]. unfold Rdiv at 2. rewrite Rabs_mult, (Rabs_pos_eq (/ 3)) by lra. lra.
Qed.
Lemma double_bounds x l u l' u' : generic_format radix2 F (arf2R x) -> next_down x = Some l -> next_up x = Some u ->
  third l (arf_mul 64 NEAR (arf_of_Z 2) x) = Some l' -> third (arf_mul 64 NEAR (arf_of_Z 2) x) u = Some u' ->
  Rabs (arf2R l' - (arf2R x - (arf2R x - dpred (arf2R x)) / 3)) <= (arf2R x - dpred (arf2R x)) / 64 /\
  Rabs (arf2R u' - (arf2R x + (dsucc (arf2R x) - arf2R x) / 3)) <= (dsucc (arf2R x) - arf2R x) / 64.
Proof.
  intros Fx Hl Hu Tl Tu. set (X := arf2R x) in *. apply next_down_spec in Hl. apply next_up_spec in Hu. fold X in Hl, Hu.
  assert (Fs : generic_format radix2 F (dsucc X)) by (apply generic_format_succ; [exact _|exact Fx]).
  pose proof (pred_lt X Fx) as G1. destruct (gap_relative X Fx G1) as [R1 R2]. pose proof (pred_lt (dsucc X) Fs) as G2. destruct (gap_relative (dsucc X) Fs G2) as [R3 R4]. rewrite pred_succ in G2, R3, R4 by (exact _ || exact Fx).
  set (D := arf_mul 64 NEAR (arf_of_Z 2) x) in *. assert (VD : arf2R D = rounded 64 NEAR (2 * X)). { unfold D. rewrite arf_mul_spec by lia. rewrite arf_of_Z_spec. reflexivity. }
  pose proof (rel_err (2 * X)) as RD. rewrite <- VD in RD. rewrite Rabs_mult, (Rabs_pos_eq 2) in RD by lra.
  assert (E : bpow radix2 (-64) = bpow radix2 (-54) * / 1024) by (change (/ 1024) with (bpow radix2 (-10)); rewrite <- bpow_plus; reflexivity). rewrite E in RD.
  assert (AD : Rabs (arf2R D) <= (2 + / 512) * Rabs X).
  { replace (arf2R D) with (2 * X + (arf2R D - 2 * X)) by ring. eapply Rle_trans; [apply Rabs_triang|]. rewrite Rabs_mult, (Rabs_pos_eq 2) by lra.
    assert (bpow radix2 (-54) <= 1) by (change 1 with (bpow radix2 0); apply bpow_le; lia). pose proof (Rabs_pos X). pose proof (bpow2_pos (-54)). nra. }
  pose proof (bpow2_pos (-54)) as P. set (p := bpow radix2 (-54)) in *.
  assert (K : forall g, Rabs X * p <= g -> Rabs (arf2R D) * p <= (2 + / 512) * g /\ Rabs (arf2R D - 2 * X) <= g / 512).
  { intros g Hg. split; [|lra]. apply Rle_trans with ((2 + / 512) * Rabs X * p); [apply Rmult_le_compat_r; lra|]. rewrite Rmult_assoc. apply Rmult_le_compat_l; lra. }
  destruct (K _ R1) as [K1 K2]. destruct (K _ R4) as [K3 K4]. apply Rabs_le_inv in K2, K4. split.
  - apply (third_spec _ _ _ (X - dpred X)) in Tl; [|fold p; rewrite Rmult_plus_distr_r, Hl; lra]. rewrite Hl in Tl. apply Rabs_le_inv in Tl. apply Rabs_le. lra.
  - apply (third_spec _ _ _ (dsucc X - X)) in Tu; [|fold p; rewrite Rmult_plus_distr_r, Hu; lra]. rewrite Hu in Tu. apply Rabs_le_inv in Tu. apply Rabs_le. lra.
Qed.
(** random(x) is random in an interval around x, well within the numbers that round to x. *)
Lemma random_double_spec ur x s r : generic_format radix2 F (arf2R x) -> random_double ur x s = Returns r ->
  exists l u, random_in ur l u s = Returns r /\ arf2R x - (arf2R x - dpred (arf2R x)) * (3 / 8) < arf2R l < arf2R x /\ arf2R x < arf2R u < arf2R x + (dsucc (arf2R x) - arf2R x) * (3 / 8).
Proof.
  intros Fx. unfold random_double. destruct (next_down x) as [l|] eqn:Hl; [|discriminate]. destruct (next_up x) as [u|] eqn:Hu; [|discriminate].
  destruct (third l _) as [l'|] eqn:Tl; [|discriminate]. destruct (third _ u) as [u'|] eqn:Tu; [|discriminate]. intros H. exists l', u'. split; [exact H|].
  destruct (double_bounds x l u l' u' Fx Hl Hu Tl Tu) as [B1 B2]. apply Rabs_le_inv in B1, B2. pose proof (pred_lt _ Fx) as G1.
  assert (Fs : generic_format radix2 F (dsucc (arf2R x))) by (apply generic_format_succ; [exact _|exact Fx]). pose proof (pred_lt _ Fs) as G2. rewrite pred_succ in G2 by (exact _ || exact Fx). lra.
Qed.
Lemma random_double_returns ur x s : generic_format radix2 F (arf2R x) -> Rabs (arf2R x) < DBL_MAX -> exists r, random_double ur x s = Returns r.
Proof.
  intros Fx B. destruct (next_down_finite x Fx B) as [l Hl]. destruct (next_up_finite x Fx B) as [u Hu]. unfold random_double. rewrite Hl, Hu. unfold third, arf_div. cbn [am arf_of_Z Z.eqb].
  set (l' := round_q _ _ _ _ _). set (u' := round_q _ _ _ _ _).
  assert (Tl : third l (arf_mul 64 NEAR (arf_of_Z 2) x) = Some l') by reflexivity. assert (Tu : third (arf_mul 64 NEAR (arf_of_Z 2) x) u = Some u') by reflexivity.
  destruct (double_bounds x l u l' u' Fx Hl Hu Tl Tu) as [B1 B2]. apply Rabs_le_inv in B1, B2. pose proof (pred_lt _ Fx) as G1.
  assert (Fs : generic_format radix2 F (dsucc (arf2R x))) by (apply generic_format_succ; [exact _|exact Fx]). pose proof (pred_lt _ Fs) as G2. rewrite pred_succ in G2 by (exact _ || exact Fx).
  apply random_in_returns. lra.
Qed.
(** No double is strictly between 0 and 1 ... and both neighbours of x. *)
Lemma not_unit x l u : generic_format radix2 F x -> x - (x - dpred x) * (3 / 8) < l < x -> x < u < x + (dsucc x - x) * (3 / 8) -> ~ (l = 0 /\ u = 1).
Proof.
  intros Fx B1 B2 [-> ->]. assert (F0 : generic_format radix2 F 0) by apply generic_format_0. pose proof (pred_ge_gt radix2 F 0 x F0 Fx (proj2 B1)) as G. pose proof (pred_lt x Fx).
  lra.
Qed.
Lemma random_double_near ur rng x s r v : urandomm_ok ur -> nonzero_stream (rng s) -> generic_format radix2 F (arf2R x) -> random_double ur x s = Returns r -> num_value rng r v -> round radix2 F ZnearestE v = arf2R x.
Proof.
  intros Hu Hs Fx H V. destruct (random_double_spec ur x s r Fx H) as (l & u & H' & B1 & B2). pose proof (random_in_range rng ur l u s r v Hu Hs H' V) as R. pose proof (pred_lt _ Fx) as G1.
  assert (Fs : generic_format radix2 F (dsucc (arf2R x))) by (apply generic_format_succ; [exact _|exact Fx]). pose proof (pred_lt _ Fs) as G2. rewrite pred_succ in G2 by (exact _ || exact Fx).
  destruct (Rle_or_lt v (arf2R x)); [apply nearest_below|apply nearest_above]; try exact Fx; lra.
Qed.
Lemma random_double_double ur rng x s r fuel d : urandomm_ok ur -> nonzero_stream (rng s) -> generic_format radix2 F (arf2R x) -> random_double ur x s = Returns r -> num_double rng fuel r = Some d -> arf2R d = arf2R x.
Proof.
  intros Hu Hs Fx H. unfold num_double. destruct (num_arf rng fuel r ARF_DOUBLE_PRECISION) as [b|] eqn:Hb; [|discriminate]. intros E. injection E as <-. rewrite arf_to_double_spec. fold F.
  destruct (random_double_spec ur x s r Fx H) as (l & u & H' & B1 & B2). assert (N := not_unit (arf2R x) (arf2R l) (arf2R u) Fx B1 B2).
  destruct (random_in_arf rng ur l u s r fuel ARF_DOUBLE_PRECISION b Hu Hs H' ltac:(unfold ARF_DOUBLE_PRECISION; lia) Hb) as (z & Z & ->). unfold ARF_DOUBLE_PRECISION. cbn [Z.add Pos.add Pos.succ].
  pose proof (pred_lt _ Fx) as G1. assert (Fs : generic_format radix2 F (dsucc (arf2R x))) by (apply generic_format_succ; [exact _|exact Fx]). pose proof (pred_lt _ Fs) as G2. rewrite pred_succ in G2 by (exact _ || exact Fx).
  set (X := arf2R x) in *. assert (P55 : Prec_gt_0 55) by reflexivity.
  assert (FX : generic_format radix2 (FLX_exp 55) X). { apply generic_inclusion_mag with (2 := Fx). intros _. unfold F, FLT_exp, FLX_exp. lia. }
  assert (RX : rounded 55 NEAR X = X) by (apply round_generic; [exact _|exact FX]).
  destruct (Rtotal_order z X) as [C|[C|C]].
  - assert (B : dpred X < z < X) by lra. pose proof (flx_between 55 X z ltac:(lia) Fx B) as E. change (bpow radix2 (53 - 55)) with (/ 4) in E. apply Rabs_le_inv in E.
    assert (U : rounded 55 NEAR z <= X). { rewrite <- RX. apply round_le; [exact _|exact _|lra]. }
    apply nearest_below; [exact Fx|lra].
  - subst z. rewrite RX. apply round_generic; [exact _|exact Fx].
  - assert (B : dpred (dsucc X) < z < dsucc X) by (rewrite pred_succ by (exact _ || exact Fx); lra). pose proof (flx_between 55 (dsucc X) z ltac:(lia) Fs B) as E. change (bpow radix2 (53 - 55)) with (/ 4) in E. rewrite pred_succ in E by (exact _ || exact Fx). apply Rabs_le_inv in E.
    assert (U : X <= rounded 55 NEAR z). { rewrite <- RX. apply round_le; [exact _|exact _|lra]. }
    apply nearest_above; [exact Fx|lra].
Qed.
