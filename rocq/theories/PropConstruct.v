(** Properties C05 (intervals) and C78 (constants and conversions of balls). *)
From Coq Require Import ZArith Bool List Reals Lra Lia.
From Flocq Require Import Core.
From Verif Require Import Arf Arb SpecArf ArfProofs ArbProofs PropArith Construct.
Open Scope R_scope.

Lemma half_spec a : arf2R (arf_shl a (-1)) = arf2R a / 2.
Proof. rewrite arf_shl_spec. change (bpow radix2 (-1)) with (/ 2). reflexivity. Qed.
(** The ball of an interval contains the interval. *)
Theorem C05_of_interval : forall mag_up, mag_up_ok mag_up -> forall prec a b v, (0 < prec)%Z -> arf2R a <= v <= arf2R b -> contains (arb_of_interval mag_up prec a b) v.
Proof.
  intros mag_up Hm prec a b v Hp Hv. unfold contains, arb_of_interval. cbn [rad mid]. rewrite !half_spec.
  set (sum := arf_add_exact a b). pose proof (round_err_spec (Some prec) sum Hp) as E. pose proof (round_err_nonneg (Some prec) sum) as N.
  assert (Es : arf2R sum = arf2R a + arf2R b) by apply arf_add_exact_spec.
  pose proof (Hm (arf_add_exact (arf_abs (arf_sub_exact b a)) (round_err (Some prec) sum))) as M. rewrite arf_add_exact_spec, arf_abs_spec, arf_sub_exact_spec in M.
  rewrite (Rabs_pos_eq (arf2R b - arf2R a)) in M by lra. specialize (M ltac:(lra)).
  apply Rabs_le. apply Rabs_le_inv in E. lra.
Qed.
(** There and back: no point of the ball is lost. *)
Theorem C05_roundtrip : forall mag_up, mag_up_ok mag_up -> forall prec x lo hi v, (0 < prec)%Z -> arb_interval x = Some (lo, hi) -> contains x v -> contains (arb_of_interval mag_up prec lo hi) v.
Proof.
  intros mag_up Hm prec x lo hi v Hp H Hv. apply C05_of_interval; [exact Hm|exact Hp|]. apply (C05_interval_encloses x lo hi H v Hv).
Qed.
(** If nothing has to be rounded, it is exactly the interval. *)
Theorem C05_of_interval_exact : forall prec a b v, (0 < prec)%Z -> fits prec (arf2R a + arf2R b) -> arf2R a <= arf2R b ->
  (contains (arb_of_interval (fun r => r) prec a b) v <-> arf2R a <= v <= arf2R b).
Proof.
  intros prec a b v Hp F Hab. unfold contains, arb_of_interval. cbn [rad mid]. rewrite !half_spec.
  set (sum := arf_add_exact a b). assert (Es : arf2R sum = arf2R a + arf2R b) by apply arf_add_exact_spec.
  assert (Rn : arf2R (arf_round DOWN prec sum) = arf2R sum).
  { rewrite arf_round_spec by exact Hp. rewrite Es. apply round_generic; [apply (rndZ_valid DOWN)|exact F]. }
  assert (E0 : arf2R (round_err (Some prec) sum) = 0).
  { unfold round_err. rewrite (proj2 (arf_eqb_spec (arf_round DOWN prec sum) sum) Rn). unfold arf2R, arf_zero. cbn. ring. }
  cbn [round_mid]. rewrite Rn, arf_add_exact_spec, E0, arf_abs_spec, arf_sub_exact_spec, Es. rewrite (Rabs_pos_eq (arf2R b - arf2R a)) by lra.
  split; intros H; [apply Rabs_le_inv in H; lra|apply Rabs_le; lra].
Qed.
Example C05_of_interval_case : arb_interval (mkArb (mkArf 19 (-2)) (Some (mkArf 1 (-3)))) = Some (mkArf 9 (-1), mkArf 10 (-1)) /\
  contains (arb_of_interval (fun r => r) 64 (mkArf 9 (-1)) (mkArf 10 (-1))) (19 / 4).
Proof.
  split; [vm_compute; reflexivity|]. apply C05_of_interval; [intros r H; lra|lia|]. unfold arf2R. cbn. lra.
Qed.

(** * C78: constants and conversions *)
Lemma point_iff v c : Rabs (v - c) <= 0 <-> v = c.
Proof. split; intros H; [|rewrite H, Rminus_diag_eq, Rabs_R0 by reflexivity; lra]. apply Rabs_le_inv in H. lra. Qed.
Theorem C78_constants : forall v,
  (contains arb_zero v <-> v = 0) /\ (contains arb_one v <-> v = 1) /\ (contains arb_zero_pm_one v <-> -1 <= v <= 1) /\
  (contains arb_unit_interval v <-> 0 <= v <= 1) /\ contains arb_zero_pm_inf v.
Proof.
  intros v. unfold contains. cbn. unfold arf2R. cbn.
  split; [split; [intros H; apply Rabs_le_inv in H|intros ->; apply Rabs_le]; lra|].
  split; [split; [intros H; apply Rabs_le_inv in H|intros ->; apply Rabs_le]; lra|].
  split; [split; intros H; [apply Rabs_le_inv in H|apply Rabs_le]; lra|].
  split; [split; intros H; [apply Rabs_le_inv in H|apply Rabs_le]; lra|exact Logic.I].
Qed.
(** The midpoint is a point of the ball; the double is the one closest to the midpoint. *)
Theorem C78_midpoint : forall x, arb_wf x -> contains x (arf2R (arb_to_arf x)).
Proof.
  intros x W. unfold contains, arb_to_arf. destruct (rad x) as [r|] eqn:E; [|exact Logic.I]. rewrite Rminus_diag_eq, Rabs_R0 by reflexivity. apply (arb_wf_rad x r W E).
Qed.
Theorem C78_double : forall x, arf2R (arb_to_double x) = round radix2 (FLT_exp (-1074) 53) ZnearestE (arf2R (arb_to_arf x)).
Proof. intros x. apply arf_to_double_spec. Qed.
(** is_exact(): the ball is a single point; is_finite(): it is bounded. *)
Theorem C78_is_exact : forall x, arb_wf x -> (arb_is_exact x = true <-> exists c, forall v, contains x v <-> v = c).
Proof.
  intros x W. split.
  - intros H. exists (arf2R (mid x)). intros v. unfold arb_is_exact in H. unfold contains. destruct (rad x) as [r|]; [|discriminate]. apply Z.eqb_eq in H.
    unfold arf2R at 2. rewrite H, Rmult_0_l. apply point_iff.
  - intros [c H]. unfold arb_is_exact. unfold contains in H. destruct (rad x) as [r|] eqn:E.
    + pose proof (arb_wf_rad x r W E) as P. assert (E1 : arf2R (mid x) = c) by (apply H; rewrite Rminus_diag_eq, Rabs_R0 by reflexivity; exact P).
      assert (E2 : arf2R (mid x) + arf2R r = c) by (apply H; rewrite Rabs_pos_eq; lra). apply Z.eqb_eq. assert (Z0 : arf2R r = 0) by lra. unfold arf2R in Z0.
      apply Rmult_integral in Z0. destruct Z0 as [Z0|Z0]; [apply eq_IZR; exact Z0|]. pose proof (bpow_gt_0 radix2 (ae r)). lra.
    + exfalso. pose proof (proj1 (H c) Logic.I). pose proof (proj1 (H (c + 1)) Logic.I). lra.
Qed.
Theorem C78_is_finite : forall x, arb_is_finite x = true <-> exists B, forall v, contains x v -> Rabs v <= B.
Proof.
  intros x. unfold arb_is_finite, contains. destruct (rad x) as [r|]; split; try discriminate; try reflexivity.
  - intros _. exists (Rabs (arf2R (mid x)) + arf2R r). intros v H. replace v with (arf2R (mid x) + (v - arf2R (mid x))) by ring. eapply Rle_trans; [apply Rabs_triang|]. lra.
  - intros [B H]. exfalso. pose proof (H (Rabs B + 1) Logic.I) as K. rewrite Rabs_pos_eq in K by (pose proof (Rabs_pos B); lra). pose proof (Rle_abs B). lra.
Qed.
Example C78_example : let x := mkArb (mkArf 3 (-1)) (Some (mkArf 1 (-2))) in
  arb_wf x /\ arb_to_arf x = mkArf 3 (-1) /\ arb_is_exact x = false /\ arb_is_exact arb_one = true /\ arb_is_finite x = true /\ arb_is_finite arb_zero_pm_inf = false /\ contains x (7 / 4) /\ ~ contains x 2.
Proof.
  cbv zeta. split; [cbn; lia|]. split; [reflexivity|]. split; [reflexivity|]. split; [reflexivity|]. split; [reflexivity|]. split; [reflexivity|]. unfold contains, arf2R. cbn.
  split; [apply Rabs_le; lra|]. intros H. apply Rabs_le_inv in H. lra.
Qed.
