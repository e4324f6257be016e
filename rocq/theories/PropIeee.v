(** * C82 Conversions to double follow IEEE-754, also when they overflow *)
From Coq Require Import ZArith QArith Qcanon Bool List Reals Qreals Lra Lia Psatz.
From Flocq Require Import Core IEEE754.Binary IEEE754.BinarySingleNaN.
From Verif Require Import Arf Arb Real SpecArf ArfProofs ArbProofs SpecReal RealProofs RealProofs2 RealProofs3 RealProofs4 RealProofs5 RealProofs6 Gen SpecGen GenProofs Ring SpecRing RingProofs Module Element SpecModule ModuleProofs ElementProofs
  ElementProofs2 ElementProofs3 ElementProofs4 Loops SpecLoops Near Near2 LoopsProofs LoopsProofs2 LoopsProofs3 LoopsProofs4 LoopsProofs5 Balls PropOrder PropDouble LoopsCases PropLoops Double SpecDouble PropReal.
Import ListNotations.
Open Scope R_scope.

Local Instance prec53' : Prec_gt_0 53. Proof. reflexivity. Qed.
Lemma arf_sign a : (am a <? 0)%Z = true <-> arf2R a < 0.
Proof.
  rewrite Z.ltb_lt. unfold arf2R. pose proof (bpow_gt_0 radix2 (ae a)) as P. split; intros H.
  - apply IZR_lt in H. nra.
  - apply lt_IZR. destruct (Rlt_or_le (IZR (am a)) 0) as [|G]; [assumption|]. exfalso. assert (0 <= IZR (am a) * bpow radix2 (ae a)) by (apply Rmult_le_pos; lra). lra.
Qed.
Theorem C82_float : forall a, ieee_nearest (arf2R a) (arf_get_d a).
Proof.
  intros a. unfold arf_get_d. destruct (arf_ltb (arf_abs (arf_to_double a)) (mkArf 1 1024)) eqn:E.
  - apply arf_ltb_spec in E. rewrite arf_abs_spec, arf_to_double_spec in E. cbn [ieee_nearest]. rewrite arf_to_double_spec. split; [reflexivity|].
    unfold nearest_double. replace (arf2R (mkArf 1 1024)) with (bpow radix2 1024) in E by (unfold arf2R; cbn [am ae]; ring). exact E.
  - apply arf_ltb_false in E. rewrite arf_abs_spec, arf_to_double_spec in E. cbn [ieee_nearest]. split; [|apply arf_sign].
    unfold nearest_double. replace (arf2R (mkArf 1 1024)) with (bpow radix2 1024) in E by (unfold arf2R; cbn [am ae]; ring). exact E.
Qed.
Theorem C82_ball : forall x, ieee_nearest (arf2R (mid x)) (arb_get_d x).
Proof. intros x. apply C82_float. Qed.

(** The same as Flocq's formalization of binary64. *)
Local Instance emax_ok : Prec_lt_emax 53 1024. Proof. reflexivity. Qed.
Theorem C82_binary64 : forall a, let b := binary_normalize 53 1024 prec53' emax_ok mode_NE (am a) (ae a) false in
  match arf_get_d a with
  | DFin d => is_finite b = true /\ B2R b = arf2R d
  | DInf negative => b = B754_infinity negative
  end.
Proof.
  intros a b. pose proof (C82_float a) as H. pose proof (binary_normalize_correct 53 1024 prec53' emax_ok mode_NE (am a) (ae a) false) as C.
  change (F2R {| Fnum := am a; Fexp := ae a |}) with (arf2R a) in C. cbv zeta in C. fold b in C.
  change (round radix2 (SpecFloat.fexp 53 1024) (round_mode mode_NE) (arf2R a)) with (nearest_double (arf2R a)) in C.
  destruct (arf_get_d a) as [d|s]; cbn [ieee_nearest] in H; destruct H as [H1 H2].
  - rewrite Rlt_bool_true in C by exact H2. destruct C as (C1 & C2 & _). rewrite H1. auto.
  - rewrite Rlt_bool_false in C by exact H1. cbn [binary_overflow overflow_to_inf] in C.
    assert (Es : Rlt_bool (arf2R a) 0 = s). { destruct s; [apply Rlt_bool_true; apply H2; reflexivity|apply Rlt_bool_false]. destruct (Rlt_or_le (arf2R a) 0) as [L|L]; [apply H2 in L; discriminate|exact L]. }
    change (binary_overflow 53 1024 mode_NE (Rlt_bool (arf2R a) 0)) with (SpecFloat.S754_infinity (Rlt_bool (arf2R a) 0)) in C. rewrite Es in C.
    destruct b; cbn [B2SF] in C; try discriminate. injection C as ->. reflexivity.
Qed.

(** The result is infinite exactly if the number is at least halfway from the largest double to 2^1024. *)
Lemma nearest_opp v : nearest_double (- v) = - nearest_double v.
Proof. unfold nearest_double. apply round_NE_opp. Qed.
Lemma big_double : generic_format radix2 (FLT_exp (-1074) 53) (bpow radix2 1024 - bpow radix2 971).
Proof.
  replace (bpow radix2 1024 - bpow radix2 971) with (F2R (Float radix2 (2 ^ 53 - 1) 971)).
  - apply generic_format_FLT. exists (Float radix2 (2 ^ 53 - 1) 971); [reflexivity|cbn; lia|cbn; lia].
  - unfold F2R. cbn [Fnum Fexp]. rewrite minus_IZR. replace (bpow radix2 1024) with (bpow radix2 53 * bpow radix2 971) by (rewrite <- bpow_plus; reflexivity).
    replace (IZR (2 ^ 53)) with (bpow radix2 53); [ring|]. rewrite <- IZR_Zpower by lia. reflexivity.
Qed.
Lemma big_succ : succ radix2 (FLT_exp (-1074) 53) (bpow radix2 1024 - bpow radix2 971) = bpow radix2 1024.
Proof.
  assert (P : bpow radix2 1024 - bpow radix2 971 = pred radix2 (FLT_exp (-1074) 53) (bpow radix2 1024)).
  { rewrite pred_bpow. reflexivity. }
  rewrite P. apply succ_pred; [exact _|]. apply generic_format_bpow. unfold FLT_exp. lia.
Qed.
Lemma big_round : nearest_double overflow_threshold = bpow radix2 1024.
Proof.
  unfold nearest_double, overflow_threshold.
  assert (E : bpow radix2 1024 - bpow radix2 970 = (IZR (2 ^ 54 - 1)) * bpow radix2 970).
  { rewrite minus_IZR. replace (bpow radix2 1024) with (bpow radix2 54 * bpow radix2 970) by (rewrite <- bpow_plus; reflexivity). replace (IZR (2 ^ 54)) with (bpow radix2 54); [ring|]. rewrite <- IZR_Zpower by lia. reflexivity. }
  rewrite E. change (IZR (2 ^ 54 - 1) * bpow radix2 970) with (arf2R (mkArf (2 ^ 54 - 1) 970)). rewrite <- arf_to_double_spec.
  assert (A : arf_eqb (arf_to_double (mkArf (2 ^ 54 - 1) 970)) (mkArf 1 1024) = true) by (vm_compute; reflexivity).
  apply arf_eqb_spec in A. rewrite A. unfold arf2R. cbn [am ae]. ring.
Qed.
Lemma nearest_le u v : u <= v -> nearest_double u <= nearest_double v.
Proof. intros H. apply round_le; [exact _|exact _|exact H]. Qed.
Lemma overflow_pos v : bpow radix2 1024 <= nearest_double v <-> overflow_threshold <= v.
Proof.
  split; intros H.
  - destruct (Rle_or_lt overflow_threshold v) as [|L]; [assumption|exfalso].
    pose proof (round_N_le_midp radix2 (FLT_exp (-1074) 53) (fun x => negb (Z.even x)) (bpow radix2 1024 - bpow radix2 971) v big_double) as R.
    change (round radix2 (FLT_exp (-1074) 53) ZnearestE v) with (nearest_double v) in R.
    assert (nearest_double v <= bpow radix2 1024 - bpow radix2 971).
    { apply R. rewrite big_succ. unfold overflow_threshold in L. replace (bpow radix2 971) with (2 * bpow radix2 970); [lra|]. change 2 with (bpow radix2 1) at 1. rewrite <- bpow_plus. reflexivity. }
    pose proof (bpow_gt_0 radix2 971). lra.
  - rewrite <- big_round. apply nearest_le. exact H.
Qed.
Lemma overflow_abs v : bpow radix2 1024 <= Rabs (nearest_double v) <-> overflow_threshold <= Rabs v.
Proof.
  assert (T : 0 < overflow_threshold). { unfold overflow_threshold. pose proof (bpow_lt radix2 970 1024 ltac:(lia)). lra. }
  assert (N0 : nearest_double 0 = 0) by (apply round_0; exact _).
  destruct (Rle_or_lt 0 v) as [P|P].
  - rewrite (Rabs_pos_eq v) by exact P. rewrite Rabs_pos_eq; [apply overflow_pos|]. rewrite <- N0. apply nearest_le. exact P.
  - rewrite (Rabs_left v) by exact P. assert (nearest_double v <= 0) by (rewrite <- N0; apply nearest_le; lra). rewrite (Rabs_left1 (nearest_double v)) by assumption. rewrite <- nearest_opp. apply overflow_pos.
Qed.
Theorem C82_overflow : forall v d, ieee_nearest v d -> ((exists negative, d = DInf negative) <-> overflow_threshold <= Rabs v).
Proof.
  intros v d H. rewrite <- overflow_abs. destruct d as [a|s]; cbn [ieee_nearest] in H; destruct H as [H1 H2].
  - split; [intros [s C]; discriminate|]. lra.
  - split; [intros _; exact H1|]. intros _. exists s. reflexivity.
Qed.
(** ieee_nearest determines the double. *)
Theorem C82_unique : forall v d d', ieee_nearest v d -> ieee_nearest v d' -> double_eqb d d' = true.
Proof.
  intros v [a|s] [b|t]; cbn [ieee_nearest double_eqb]; intros [H1 H2] [H3 H4]; try lra.
  - apply arf_eqb_spec. congruence.
  - apply eqb_true_iff. apply eq_true_iff_eq. tauto.
Qed.

(** Real numbers: the double of an approximation with 53 bits. *)
Theorem C82_number : forall rng fuel x v d, num_ok rng x -> num_value rng x v -> num_get_d rng fuel x = Some d ->
  exists a, Rabs (v - a) <= Rabs a * bpow radix2 (-53) /\ ieee_nearest a d.
Proof.
  intros rng fuel x v d Hx Hv H. unfold num_get_d in H. destruct (num_arf rng fuel x ARF_DOUBLE_PRECISION) as [a|] eqn:Ea; [|discriminate]. injection H as <-.
  exists (arf2R a). split; [|apply C82_float].
  pose proof (num_near4 rng x v fuel ARF_DOUBLE_PRECISION a Hx Hv ltac:(unfold ARF_DOUBLE_PRECISION; lia) Ea) as [[-> ->]|[Hm Hn]].
  - rewrite Rminus_0_r, Rabs_R0. lra.
  - pose proof (ball_rad_mid a ARF_DOUBLE_PRECISION Hm) as Hr. eapply Rle_trans; [exact Hn|].
    unfold ARF_DOUBLE_PRECISION in *. replace (-53)%Z with (2 + (-1 - 54))%Z by lia. rewrite bpow_plus. change (bpow radix2 2) with 4. lra.
Qed.
Theorem C82_number_returns : forall rng x, num_ok rng x -> exists fuel0, forall fuel, (fuel0 <= fuel)%nat -> exists d, num_get_d rng fuel x = Some d.
Proof.
  intros rng x Hx. destruct (num_arf_returns rng x ARF_DOUBLE_PRECISION Hx) as (f0 & a & H). exists f0. intros fuel Hf. exists (arf_get_d a). unfold num_get_d. rewrite (H fuel Hf). reflexivity.
Qed.

(** Elements *)
Lemma between lo u hi d : lo <= u <= hi -> ieee_nearest lo d -> forall d', ieee_nearest hi d' -> double_eqb d d' = true -> ieee_nearest u d.
Proof.
  intros [L U] H d' H' E. pose proof (nearest_le _ _ L) as NL. pose proof (nearest_le _ _ U) as NU. assert (N0 : nearest_double 0 = 0) by (apply round_0; exact _).
  destruct d as [a|s], d' as [b|t]; cbn [ieee_nearest double_eqb] in *; try discriminate; destruct H as [H1 H2], H' as [H3 H4].
  - apply arf_eqb_spec in E. assert (nearest_double u = nearest_double lo) by lra. rewrite H. split; [exact H1|exact H2].
  - apply eqb_prop in E. subst t. destruct s.
    + assert (hi < 0) by (apply H4; reflexivity). assert (lo < 0) by lra. assert (nearest_double hi <= 0) by (rewrite <- N0; apply nearest_le; lra).
      rewrite Rabs_left1 in H3 by assumption. split; [rewrite Rabs_left1 by lra; lra|]. split; [lra|reflexivity].
    + assert (0 <= lo) by (destruct (Rlt_or_le lo 0) as [N|N]; [apply H2 in N; discriminate|exact N]). assert (0 <= nearest_double lo) by (rewrite <- N0; apply nearest_le; lra).
      rewrite Rabs_pos_eq in H1 by assumption. split; [rewrite Rabs_pos_eq by lra; lra|]. split; [discriminate|lra].
Qed.
Lemma ieee_eq v d w d' : ieee_nearest v d -> ieee_nearest w d' -> nearest_double v = nearest_double w -> (v < 0 <-> w < 0) -> double_eqb d d' = true.
Proof.
  intros H H' E Sg. destruct d as [a|s], d' as [b|t]; cbn [ieee_nearest double_eqb] in *; destruct H as [H1 H2], H' as [H3 H4]; rewrite E in *; try lra.
  - apply arf_eqb_spec. congruence.
  - apply eqb_true_iff, eq_true_iff_eq. tauto.
Qed.
Lemma get_d_sound A S : lawful A S -> forall mag_up, mag_up_ok mag_up -> forall garb carb rho k (x : elem A) rounds d, 1 <= k <= 8 -> elem_wf S x -> approximated A S garb carb rho k x -> to_rational x = None ->
  elem_get_d mag_up garb carb rounds x = Some d -> exists u, perturbed ((k - 1) * bpow radix2 (-54)) (value S rho x) u /\ ieee_nearest u d.
Proof.
  intros L mag_up Hm garb carb rho k x rounds d Hk W E T H. unfold elem_get_d in H. rewrite T in H. apply (agree_search_sound A S L mag_up Hm garb carb rho k Hk) in H; [|exact W|exact E|lia].
  destruct H as (u & lo & hi & P & B & F & Q). subst d. exists u. split; [exact P|]. exact (between _ _ _ _ B (C82_float lo) _ (C82_float hi) Q).
Qed.

Theorem C82_irrational : forall A S, lawful A S -> forall mag_up, mag_up_ok mag_up -> forall garb carb rho (x : elem A), elem_wf S x -> enclosing_balls S garb carb rho x -> to_rational x = None ->
  forall rounds d, elem_get_d mag_up garb carb rounds x = Some d -> ieee_nearest (value S rho x) d.
Proof.
  intros A S L mag_up Hm garb carb rho x W E T rounds d H. destruct (get_d_sound A S L mag_up Hm garb carb rho 1 x rounds d one_ok W (ideal_approximated A S garb carb rho x E) T H) as (u & P & D).
  unfold perturbed in P. replace ((1 - 1) * bpow radix2 (-54) * Rabs (value S rho x)) with 0 in P by ring. assert (u = value S rho x) as <-; [|exact D].
  destruct (Req_dec (u - value S rho x) 0) as [Z|Z]; [lra|]. apply Rabs_pos_lt in Z. lra.
Qed.
Lemma rational_get_d A (x : elem A) (q : Qc) mag_up garb carb rounds : to_rational x = Some q -> (q = 0%Qc \/ bpow radix2 (-1022) <= Rabs (Q2R q)) ->
  exists d, elem_get_d mag_up garb carb rounds x = Some d /\ ieee_nearest (Q2R q) d.
Proof.
  intros T R. unfold elem_get_d. rewrite T. eexists. split; [reflexivity|]. set (a := round_q NEAR 53 (qc_num q) (qc_den q) 0). pose proof (C82_float a) as H.
  assert (V : arf2R a = round radix2 (FLX_exp 53) ZnearestE (Q2R q)).
  { unfold a. rewrite round_q_spec; [|lia|apply lt_IZR, qc_den_pos]. change (bpow radix2 0) with 1. rewrite Rmult_1_r, <- qc_num_den. reflexivity. }
  assert (N : nearest_double (arf2R a) = nearest_double (Q2R q)).
  { rewrite V. destruct R as [->|R]; [|exact (round_normal _ R)]. replace (Q2R 0%Qc) with 0 by (unfold Q2R; cbn; lra). rewrite round_0 by exact _. reflexivity. }
  assert (Sg : arf2R a < 0 <-> Q2R q < 0).
  { rewrite V. assert (Z0 : round radix2 (FLX_exp 53) ZnearestE 0 = 0) by (apply round_0; exact _). split; intros G.
    - destruct (Rlt_or_le (Q2R q) 0) as [|C]; [assumption|exfalso]. assert (0 <= round radix2 (FLX_exp 53) ZnearestE (Q2R q)) by (rewrite <- Z0; apply round_le; [exact _|exact _|exact C]). lra.
    - assert (round radix2 (FLX_exp 53) ZnearestE (Q2R q) <= 0) by (rewrite <- Z0; apply round_le; [exact _|exact _|lra]).
      destruct (Req_dec (round radix2 (FLX_exp 53) ZnearestE (Q2R q)) 0) as [E|E]; [|lra]. apply eq_0_round_0_FLX in E; [lra|exact _|exact _]. }
  destruct (arf_get_d a); cbn [ieee_nearest] in *; rewrite N in H; [exact H|]. rewrite <- Sg. exact H.
Qed.
(** Elements of any size, except for subnormal ones (C76_subnormal_refuted). *)
Theorem C82_element : forall A S, lawful A S -> forall mag_up, mag_up_ok mag_up -> mag_up_tight mag_up -> forall garb carb rho (p : par A) gs, independent S p rho gs -> In (GRat 1) gs ->
  forall x, among S p gs x -> enclosing_balls S garb carb rho x -> shrinking_balls S garb carb x -> (value S rho x = 0 \/ bpow radix2 (-1022) <= Rabs (value S rho x)) ->
  exists d, eventually (fun rounds => elem_get_d mag_up garb carb rounds x) d /\ ieee_nearest (value S rho x) d.
Proof.
  intros A S L mag_up Hm Ht garb carb rho p gs HI H1 x Lx Ex Cx R. destruct (to_rational x) as [q|] eqn:T.
  - pose proof (to_rational_sound A S L x q (proj1 (proj1 Lx)) T rho) as V. rewrite V in *.
    assert (R' : q = 0%Qc \/ bpow radix2 (-1022) <= Rabs (Q2R q)). { destruct R as [R|R]; [left|right; exact R]. apply Qc_is_canon. apply eqR_Qeq. rewrite R. unfold Q2R. cbn. lra. }
    destruct (rational_get_d A x q mag_up garb carb 0 T R') as (d & Hd & Vd). exists d. split; [|exact Vd]. exists 0%nat. intros n _. unfold elem_get_d in *. rewrite T in *. exact Hd.
  - pose proof (proj1 (proj1 Lx)) as W. pose proof (ideal_approximated A S garb carb rho x Ex) as E. destruct (irrational_double A S L p rho gs HI H1 x Lx T) as [F M].
    assert (V0 : value S rho x <> 0) by (intros Z0; apply F; rewrite Z0; apply generic_format_0).
    destruct (agree_search_terminates A S L mag_up Hm garb carb rho 1 one_ok Ht arf_get_d double_eqb x 55 ltac:(lia) W E Cx V0) as (N & d & Hd).
    + destruct (rounding_constant _ F M) as (eta & He & HR). exists (Rmin eta (Rabs (value S rho x) / 2)). pose proof (Rabs_pos_lt _ V0) as PV. pose proof (Rmin_l eta (Rabs (value S rho x) / 2)). pose proof (Rmin_r eta (Rabs (value S rho x) / 2)).
      split; [apply Rmin_glb_lt; lra|]. intros lo hi Hl Hh. apply (ieee_eq _ _ _ _ (C82_float lo) (C82_float hi)).
      * unfold nearest_double. rewrite (HR (arf2R lo)), (HR (arf2R hi)); [reflexivity|lra..].
      * unfold Rabs in *. destruct (Rcase_abs (value S rho x)); lra.
    + exists d. split; [exists N; intros n Hn; unfold elem_get_d; rewrite T; apply Hd; exact Hn|].
      apply (C82_irrational A S L mag_up Hm garb carb rho x W Ex T N d). unfold elem_get_d. rewrite T. apply Hd. lia.
Qed.
(** With the library's own balls: the double closest to a number that is extremely close to the element. *)
Theorem C82_element_code : forall A S, lawful A S -> forall mag_up, mag_up_ok mag_up -> forall rng names rho garb carb (x : elem A), elem_wf S x -> code_setting S rng names rho garb carb x -> to_rational x = None ->
  forall rounds d, elem_get_d mag_up garb carb rounds x = Some d -> exists u, perturbed (3 * bpow radix2 (-54)) (value S rho x) u /\ ieee_nearest u d.
Proof.
  intros A S L mag_up Hm rng names rho garb carb x W E T rounds d H. apply code_approximated in E; [|exact W]. destruct (get_d_sound A S L mag_up Hm garb carb rho 4 x rounds d four_ok W E T H) as (u & P & D).
  exists u. replace (4 - 1) with 3 in P by ring. split; [exact P|exact D].
Qed.
(** 2^1024 - 2^970 and its negative overflow, a little less does not; the largest double. *)
Example C82_case : arf_get_d (mkArf (2 ^ 54 - 1) 970) = DInf false /\ arf_get_d (mkArf (1 - 2 ^ 54) 970) = DInf true /\
  double_eqb (arf_get_d (mkArf (2 ^ 60 - 65) 964)) (DFin (mkArf (2 ^ 53 - 1) 971)) = true /\
  double_eqb (arf_get_d (mkArf 3 (-1076))) (DFin (mkArf 1 (-1074))) = true /\ arf_get_d (mkArf 1 (-1075)) = DFin (mkArf 0 (-1074)) /\
  num_get_d rand48 0 (RRat (inject_Z (2 ^ 1024))) = Some (DInf false).
Proof. vm_compute. repeat split; reflexivity. Qed.
Example C82_element_case : exists d, eventually (fun n => elem_get_d (A := int_ring) up30 (ideal_garb root2) int_arb n zx) d /\ ieee_nearest (3 + 2 * sqrt (IZR 2)) d.
Proof.
  rewrite <- zx_value. apply (C82_element _ _ int_lawful up30 up30_ok up30_tight (ideal_garb root2) int_arb root2 tt gens2 independent2 in1 zx zx_among (ex_enc zx) (ex_shr zx)).
  right. rewrite zx_value. pose proof sqrt2_bounds. rewrite Rabs_pos_eq by lra. apply Rle_trans with (bpow radix2 0); [apply bpow_le; lia|cbn; lra].
Qed.
