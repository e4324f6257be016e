(** Bounds, comparisons and quotients of small balls. *)
From Coq Require Import ZArith QArith Bool List Reals Lia Lra Psatz.
From Flocq Require Import Core.
From Verif Require Import Arf Arb SpecArf ArfProofs ArbProofs Loops SpecLoops Near.
Import ListNotations.
Open Scope R_scope.

Lemma round_rel_error prec rnd {V : Valid_rnd rnd} x : (0 < prec)%Z -> Rabs (round radix2 (FLX_exp prec) rnd x - x) <= Rabs x * bpow radix2 (1 - prec).
Proof.
  intros Hp. assert (P : Prec_gt_0 prec) by exact Hp. destruct (Req_dec x 0) as [->|N].
  - rewrite round_0 by exact V. rewrite Rminus_0_r, Rabs_R0. lra.
  - left. eapply Rlt_le_trans; [apply error_lt_ulp; [exact _|exact V|exact N]|]. apply ulp_FLX_le; exact P.
Qed.
(** The bounds computed from an is_accurate ball. *)
Lemma interval_near b v e : near b v e -> is_accurate 2 b = true ->
  exists lo hi, arb_interval b = Some (lo, hi) /\ Rabs (arf2R lo - v) <= 18 * e /\ Rabs (arf2R hi - v) <= 18 * e.
Proof.
  intros N Ha. pose proof (near_mid b v e N) as (He & Hm & _). destruct N as (W & r & Er & Hr & C). pose proof (arb_wf_rad b r W Er) as Pr.
  apply Rabs_le_inv in C.
  unfold arb_interval. rewrite Er. destruct (Z.eqb_spec (rel_accuracy_bits b) ARF_PREC_EXACT) as [P|P].
  - eexists _, _. split; [reflexivity|]. rewrite arf_sub_exact_spec, arf_add_exact_spec. split; apply Rabs_le; lra.
  - unfold is_accurate, arb_is_exact in Ha. rewrite Er in Ha. destruct (Z.eqb_spec (am r) 0) as [Z0|Z0].
    { exfalso. apply P. unfold rel_accuracy_bits. rewrite Er, Z0. reflexivity. }
    cbn [orb] in Ha. apply Z.leb_le in Ha. assert (L2 : (rel_accuracy_bits b <? 2)%Z = false) by (apply Z.ltb_ge; exact Ha). rewrite L2.
    set (p := rel_accuracy_bits b) in *. assert (Hp : (0 < p)%Z) by lia. eexists _, _. split; [reflexivity|].
    assert (Z1 : am (mid b) <> 0%Z).
    { intros Z1. assert (K : p = (- ARF_PREC_EXACT)%Z) by (unfold p, rel_accuracy_bits; rewrite Er, Z1; destruct (Z.eqb_spec (am r) 0); [contradiction|reflexivity]). unfold ARF_PREC_EXACT in K. lia. }
    assert (Ep : p = (arf_expo (mid b) - arf_expo r - 1)%Z).
    { unfold p, rel_accuracy_bits. rewrite Er. destruct (Z.eqb_spec (am r) 0); [contradiction|]. destruct (Z.eqb_spec (am (mid b)) 0); [contradiction|reflexivity]. }
    destruct (arf_expo_spec r Z0) as [R1 R2]. destruct (arf_expo_spec (mid b) Z1) as [M1 M2]. rewrite Rabs_pos_eq in R1, R2 by exact Pr.
    assert (Q : (Rabs (arf2R (mid b)) + arf2R r) * bpow radix2 (1 - p) <= 16 * arf2R r).
    { assert (LE : (arf_expo r <= arf_expo (mid b))%Z) by lia. apply (bpow_le radix2) in LE. pose proof (bpow_gt_0 radix2 (1 - p)) as B0.
      assert (S1 : (Rabs (arf2R (mid b)) + arf2R r) * bpow radix2 (1 - p) <= (2 * bpow radix2 (arf_expo (mid b))) * bpow radix2 (1 - p)) by (apply Rmult_le_compat_r; lra).
      assert (S2 : bpow radix2 (arf_expo (mid b)) * bpow radix2 (1 - p) = 8 * bpow radix2 (arf_expo r - 1)).
      { rewrite <- bpow_plus. change 8 with (bpow radix2 3). rewrite <- bpow_plus. f_equal. lia. }
      lra. }
    pose proof (Rabs_triang (arf2R (mid b)) (- arf2R r)) as T1. rewrite Rabs_Ropp, (Rabs_pos_eq (arf2R r)) in T1 by exact Pr.
    pose proof (Rabs_triang (arf2R (mid b)) (arf2R r)) as T2. rewrite (Rabs_pos_eq (arf2R r)) in T2 by exact Pr.
    pose proof (bpow_gt_0 radix2 (1 - p)) as B0.
    rewrite arf_sub_spec, arf_add_spec by exact Hp. cbn [rndZ]. split.
    + pose proof (round_rel_error p Zfloor (arf2R (mid b) - arf2R r) Hp) as E. apply Rabs_le_inv in E. unfold Rminus in T1, E.
      assert (Rabs (arf2R (mid b) + - arf2R r) * bpow radix2 (1 - p) <= (Rabs (arf2R (mid b)) + arf2R r) * bpow radix2 (1 - p)) by (apply Rmult_le_compat_r; lra). apply Rabs_le. unfold Rminus. lra.
    + pose proof (round_rel_error p Zceil (arf2R (mid b) + arf2R r) Hp) as E. apply Rabs_le_inv in E.
      assert (Rabs (arf2R (mid b) + arf2R r) * bpow radix2 (1 - p) <= (Rabs (arf2R (mid b)) + arf2R r) * bpow radix2 (1 - p)) by (apply Rmult_le_compat_r; lra). apply Rabs_le. lra.
Qed.
Lemma is_accurate_le a a' b : (a' <= a)%Z -> is_accurate a b = true -> is_accurate a' b = true.
Proof. unfold is_accurate. intros H. rewrite !orb_true_iff, !Z.leb_le. intuition lia. Qed.

(** Comparisons are decided when the balls are small. *)
Lemma op_lt_sound x y u w c : encloses x u -> encloses y w -> op_lt x y = Some c -> (c = true <-> u < w).
Proof.
  intros [Wx Cx] [Wy Cy] E. destruct (op_lt_spec x y Wx Wy) as [T F]. destruct c.
  - split; [|reflexivity]. intros _. exact (proj1 T E u w Cx Cy).
  - split; [discriminate|]. intros L. exfalso. exact (proj1 F E u w Cx Cy L).
Qed.
Lemma op_lt_decided x y u w e d : near x u e -> near y w d -> 2 * (e + d) < Rabs (u - w) -> op_lt x y <> None.
Proof.
  intros Nx Ny H. destruct Nx as (Wx & rx & Ex & Rx & Cx), Ny as (Wy & ry & Ey & Ry & Cy). apply Rabs_le_inv in Cx, Cy.
  unfold op_lt. destruct (arb_lt x y) eqn:L; [discriminate|]. destruct (arb_ge x y) eqn:G; [discriminate|]. exfalso.
  unfold arb_lt, arb_ge, arb_le, arb_hi, arb_lo, opt2 in L, G. rewrite Ex, Ey in L, G. cbn in L, G. apply arf_ltb_false in L. apply arf_leb_false in G. rewrite arf_add_exact_spec, arf_sub_exact_spec in L, G.
  revert H. unfold Rabs. destruct (Rcase_abs _); lra.
Qed.

(** Quotients. *)
Lemma expo_pow2_le m : am m <> 0%Z -> bpow radix2 (arf_expo m) <= 2 * Rabs (arf2R m).
Proof. intros H. destruct (arf_expo_spec m H) as [L _]. replace (bpow radix2 (arf_expo m)) with (2 * bpow radix2 (arf_expo m - 1)); [lra|]. unfold Zminus. rewrite bpow_plus. cbn. field. Qed.
Lemma div_near k mag_up prec x y u w : 1 <= k <= 8 -> mag_up_ok mag_up -> mag_up_tight mag_up -> (64 <= prec)%Z -> within k x u -> within k y w -> u <> 0 -> w <> 0 ->
  is_accurate prec x = true -> is_accurate prec y = true ->
  near (arb_div mag_up prec x y) (u / w) (Rabs (u / w) * 128 * bpow radix2 (- prec)) /\ is_accurate 2 (arb_div mag_up prec x y) = true.
Proof.
  intros Hk Hm Ht Hp Ex Ey Hu Hw Ax Ay.
  destruct (accuracy_near k x u prec Hk Ex ltac:(lia) Ax) as [Nx (rx & Erx & Rx & _)]. destruct (accuracy_near k y w prec Hk Ey ltac:(lia) Ay) as [Ny (ry & Ery & Ry & _)].
  pose proof Ex as [Wx Cx]. pose proof Ey as [Wy Cy]. pose proof (arb_wf_rad x rx Wx Erx) as Px. pose proof (arb_wf_rad y ry Wy Ery) as Py.
  pose proof (arb_div_wf mag_up prec x y Hm ltac:(lia) Wx Wy) as WD.
  set (b := bpow radix2 (- prec)) in *. assert (B : 0 < b <= / 1024).
  { split; [apply bpow_gt_0|]. apply Rle_trans with (bpow radix2 (-10)); [apply bpow_le; lia|]. cbn. lra. }
  set (mx := arf2R (mid x)) in *. set (my := arf2R (mid y)) in *. set (X := Rabs mx) in *. set (Y := Rabs my) in *.
  rewrite Erx in Cx. rewrite Ery in Cy. fold mx in Cx. fold my in Cy.
  assert (KX : k * arf2R rx <= 8 * (X * b)) by (apply Rmult_le_compat; lra). assert (KY : k * arf2R ry <= 8 * (Y * b)) by (apply Rmult_le_compat; lra).
  assert (U0 : 0 < Rabs u) by (apply Rabs_pos_lt, Hu). assert (W0 : 0 < Rabs w) by (apply Rabs_pos_lt, Hw).
  assert (Ux : Rabs u <= X + 8 * (X * b) /\ X - 8 * (X * b) <= Rabs u).
  { pose proof (Rabs_triang (u - mx) mx) as T1. replace (u - mx + mx) with u in T1 by ring. pose proof (Rabs_triang_inv mx (mx - u)) as T2. replace (mx - (mx - u)) with u in T2 by ring.
    rewrite (Rabs_minus_sym mx u) in T2. fold X in T1, T2. lra. }
  assert (Uy : Rabs w <= Y + 8 * (Y * b) /\ Y - 8 * (Y * b) <= Rabs w).
  { pose proof (Rabs_triang (w - my) my) as T1. replace (w - my + my) with w in T1 by ring. pose proof (Rabs_triang_inv my (my - w)) as T2. replace (my - (my - w)) with w in T2 by ring.
    rewrite (Rabs_minus_sym my w) in T2. fold Y in T1, T2. lra. }
  assert (X0 : 0 < X) by nra. assert (Y0 : 0 < Y) by nra.
  assert (Nmy : my <> 0) by (intros E; unfold Y in Y0; rewrite E, Rabs_R0 in Y0; lra).
  assert (Nmx : mx <> 0) by (intros E; unfold X in X0; rewrite E, Rabs_R0 in X0; lra).
  assert (Low : arf2R (arf_sub_exact (arf_abs (mid y)) ry) = Y - arf2R ry) by (rewrite arf_sub_exact_spec, arf_abs_spec; reflexivity).
  assert (LowP : Y / 2 < Y - arf2R ry) by (assert (Y * b <= Y * / 1024) by (apply Rmult_le_compat_l; lra); lra).
  revert WD. unfold arb_div. rewrite Erx, Ery. cbv zeta.
  destruct (Z.leb_spec (am (arf_sub_exact (arf_abs (mid y)) ry)) 0) as [B0|B0].
  { exfalso. assert (0 < arf2R (arf_sub_exact (arf_abs (mid y)) ry)) by (rewrite Low; lra). apply arf2R_pos in H. lia. }
  pose proof (arf_div_spec prec DOWN (mid x) (mid y) ltac:(lia)) as D1. destruct (arf_div prec DOWN (mid x) (mid y)) as [m|]; [|exfalso; apply Nmy, D1]. destruct D1 as [_ D1].
  set (num := arf_add_exact _ _). set (den := arf_mul_exact _ _).
  pose proof (arf_div_spec 60 CEIL num den ltac:(lia)) as D2.
  assert (Vnum : arf2R num = X * arf2R ry + Y * arf2R rx) by (unfold num; rewrite arf_add_exact_spec, !arf_mul_exact_spec, !arf_abs_spec; reflexivity).
  assert (Vden : arf2R den = Y * (Y - arf2R ry)) by (unfold den; rewrite arf_mul_exact_spec, arf_abs_spec, Low; reflexivity).
  assert (Pden : Y * (Y / 2) < arf2R den) by (rewrite Vden; apply Rmult_lt_compat_l; lra).
  assert (Pd0 : 0 < arf2R den) by (assert (0 < Y * (Y / 2)) by (apply Rmult_lt_0_compat; lra); lra).
  destruct (arf_div 60 CEIL num den) as [r|]; [|exfalso; lra]. destruct D2 as [_ D2]. intros WD. cbn [rndZ] in D1, D2.
  set (Q := X / Y). assert (Q0 : 0 < Q) by (apply Rdiv_lt_0_compat; assumption).
  assert (AQ : Rabs (mx / my) = Q) by (unfold Q, Rdiv; rewrite Rabs_mult, Rabs_inv; reflexivity).
  (* the midpoint *)
  assert (Mm : Rabs (arf2R m) <= 2 * Q /\ Q / 2 <= Rabs (arf2R m)).
  { rewrite D1. pose proof (round_rel_error prec Ztrunc (mx / my) ltac:(lia)) as E. fold mx my in E. rewrite AQ in E.
    assert (E2 : Q * bpow radix2 (1 - prec) <= Q * / 2) by (apply Rmult_le_compat_l; [lra|]; change (/ 2) with (bpow radix2 (-1)); apply bpow_le; lia).
    set (rr := round _ _ _ _) in *. pose proof (Rabs_triang (rr - mx / my) (mx / my)) as T1. replace (rr - mx / my + mx / my) with rr in T1 by ring.
    pose proof (Rabs_triang_inv (mx / my) (mx / my - rr)) as T2. replace (mx / my - (mx / my - rr)) with rr in T2 by ring. rewrite (Rabs_minus_sym (mx / my) rr), AQ in T2. rewrite AQ in T1. lra. }
  assert (Nm : am m <> 0%Z). { intros E. assert (arf2R m = 0) by (apply arf2R_eq0; exact E). rewrite H, Rabs_R0 in Mm. lra. }
  (* the radius *)
  assert (Qn : 0 <= arf2R num / arf2R den <= 4 * Q * b).
  { assert (Hn : 0 <= arf2R num <= 2 * (X * Y * b)).
    { rewrite Vnum. assert (0 <= X * arf2R ry) by (apply Rmult_le_pos; lra). assert (0 <= Y * arf2R rx) by (apply Rmult_le_pos; lra).
      assert (X * arf2R ry <= X * (Y * b)) by (apply Rmult_le_compat_l; lra). assert (Y * arf2R rx <= Y * (X * b)) by (apply Rmult_le_compat_l; lra). lra. }
    split; [apply Rmult_le_pos; [lra|left; apply Rinv_0_lt_compat; exact Pd0]|]. apply Rmult_le_reg_r with (arf2R den); [exact Pd0|]. unfold Rdiv. rewrite Rmult_assoc, Rinv_l, Rmult_1_r by lra.
    replace (2 * (X * Y * b)) with (4 * Q * b * (Y * (Y / 2))) in Hn by (unfold Q; field; lra). assert (4 * Q * b * (Y * (Y / 2)) <= 4 * Q * b * arf2R den) by (apply Rmult_le_compat_l; [|lra]; assert (0 < Q * b) by (apply Rmult_lt_0_compat; lra); lra). lra. }
  assert (R8 : 0 <= arf2R r <= 8 * Q * b).
  { rewrite D2. split; [eapply Rle_trans; [|apply round_ceil_ge; lia]; lra|]. pose proof (round_rel_error 60 Zceil (arf2R num / arf2R den) ltac:(lia)) as E. rewrite (Rabs_pos_eq (arf2R num / arf2R den)) in E by lra. apply Rabs_le_inv in E.
    assert (bpow radix2 (1 - 60) <= 1) by (apply (bpow_le radix2 _ 0); lia). pose proof (bpow_gt_0 radix2 (1 - 60)). assert (arf2R num / arf2R den * bpow radix2 (1 - 60) <= arf2R num / arf2R den * 1) by (apply Rmult_le_compat_l; lra). lra. }
  set (ulp1 := mkArf 1 (arf_expo m + 1 - prec)).
  assert (U1 : 0 <= arf2R ulp1 <= 8 * Q * b).
  { unfold ulp1, arf2R. cbn [am ae]. rewrite Rmult_1_l. split; [left; apply bpow_gt_0|]. replace (arf_expo m + 1 - prec)%Z with (arf_expo m + (1 + - prec))%Z by lia. rewrite !bpow_plus. fold b.
    pose proof (expo_pow2_le m Nm). change (bpow radix2 1) with 2. assert (bpow radix2 (arf_expo m) <= 4 * Q) by lra. assert (bpow radix2 (arf_expo m) * (2 * b) <= 4 * Q * (2 * b)) by (apply Rmult_le_compat_r; lra). lra. }
  assert (Sum : arf2R (arf_add_exact r ulp1) = arf2R r + arf2R ulp1) by apply arf_add_exact_spec.
  assert (RR : arf2R (mag_up (arf_add_exact r ulp1)) <= 32 * Q * b) by (eapply Rle_trans; [apply Ht; lra|]; lra).
  assert (RU : Q <= 2 * Rabs (u / w)).
  { assert (EQ : Rabs (u / w) = Rabs u * / Rabs w) by (unfold Rdiv; rewrite Rabs_mult, Rabs_inv; reflexivity). rewrite EQ. apply Rmult_le_reg_r with (Y * Rabs w); [apply Rmult_lt_0_compat; assumption|].
    replace (Q * (Y * Rabs w)) with (X * Rabs w) by (unfold Q; field; lra). replace (2 * (Rabs u * / Rabs w) * (Y * Rabs w)) with (2 * Rabs u * Y) by (field; lra).
    assert (X * Rabs w <= X * (Y + 8 * (Y * b))) by (apply Rmult_le_compat_l; lra). assert ((X - 8 * (X * b)) * Y <= Rabs u * Y) by (apply Rmult_le_compat_r; lra). assert (P0 : 0 < X * Y) by (apply Rmult_lt_0_compat; assumption). assert (X * Y * b <= X * Y * / 1024) by (apply Rmult_le_compat_l; lra). lra. }
  split.
  - assert (QB : Q * b <= 2 * Rabs (u / w) * b) by (apply Rmult_le_compat_r; lra).
    split; [exact WD|]. eexists. split; [reflexivity|]. split; [lra|]. cbn [mid].
    assert (E1 : Rabs (u / w - mx / my) <= 32 * Q * b).
    { assert (W2 : Y / 2 <= Rabs w) by (assert (Y * b <= Y * / 1024) by (apply Rmult_le_compat_l; lra); lra).
      replace (u / w - mx / my) with (((u - mx) * my - (w - my) * mx) / (w * my)) by (field; split; assumption). unfold Rdiv at 1. rewrite Rabs_mult, Rabs_inv, Rabs_mult. fold Y.
      apply Rmult_le_reg_r with (Rabs w * Y); [apply Rmult_lt_0_compat; lra|]. rewrite Rmult_assoc, Rinv_l, Rmult_1_r by (apply Rmult_integral_contrapositive_currified; lra).
      eapply Rle_trans; [apply Rabs_triang|]. rewrite Rabs_Ropp, !Rabs_mult. fold X Y.
      assert (Rabs (u - mx) * Y <= 8 * (X * b) * Y) by (apply Rmult_le_compat_r; lra). assert (Rabs (w - my) * X <= 8 * (Y * b) * X) by (apply Rmult_le_compat_r; lra).
      assert (0 < 32 * Q * b) by (assert (0 < Q * b) by (apply Rmult_lt_0_compat; lra); lra).
      assert (32 * Q * b * (Y / 2 * Y) <= 32 * Q * b * (Rabs w * Y)) by (apply Rmult_le_compat_l; [lra|]; apply Rmult_le_compat_r; lra).
      replace (32 * Q * b * (Y / 2 * Y)) with (16 * (X * b * Y)) in H2 by (unfold Q; field; lra). lra. }
    assert (E2 : Rabs (mx / my - arf2R m) <= 2 * Q * b).
    { rewrite D1, Rabs_minus_sym. pose proof (round_rel_error prec Ztrunc (mx / my) ltac:(lia)) as E. rewrite AQ in E. replace (1 - prec)%Z with (1 + - prec)%Z in E by lia. rewrite bpow_plus in E. fold b in E. change (bpow radix2 1) with 2 in E. fold mx my. lra. }
    replace (u / w - arf2R m) with ((u / w - mx / my) + (mx / my - arf2R m)) by ring. eapply Rle_trans; [apply Rabs_triang|]. lra.
  - unfold is_accurate, arb_is_exact, rel_accuracy_bits. cbn [rad mid]. destruct (Z.eqb_spec (am (mag_up (arf_add_exact r ulp1))) 0) as [Z0|Z0]; [reflexivity|]. cbn [orb].
    destruct (Z.eqb_spec (am m) 0) as [Z1|Z1]; [contradiction|]. apply Z.leb_le. destruct (arf_expo_spec _ Z0) as [E1 _]. destruct (arf_expo_spec m Z1) as [_ E2].
    rewrite Rabs_pos_eq in E1 by (eapply Rle_trans; [|apply Hm]; lra). apply Z.nlt_ge. intros F. assert (F' : (arf_expo m <= (arf_expo (mag_up (arf_add_exact r ulp1)) - 1) + 3)%Z) by lia. apply (bpow_le radix2) in F'. rewrite bpow_plus in F'. change (bpow radix2 3) with 8 in F'. assert (Q * b <= Q * / 1024) by (apply Rmult_le_compat_l; lra). lra.
Qed.
