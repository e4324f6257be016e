(** The balls of coefficients and generators. *)
From Coq Require Import ZArith QArith Qcanon Bool List Reals Qreals Lia Lra Psatz.
From Flocq Require Import Core.
From Verif Require Import Arf Arb Real SpecArf SpecReal ArfProofs ArbProofs RealProofs RealProofs2 RealProofs3 RealProofs4 RealProofs5 RealProofs6 Gen SpecGen Ring SpecRing Module Element SpecModule Loops SpecLoops Near Near2 LoopsProofs LoopsProofs2.
Import ListNotations.
Open Scope R_scope.

(** * Coefficients *)
Lemma int_arb_encloses p : coefficients_enclosed int_sem int_arb p.
Proof. intros c prec _ _. apply arb_of_Z_encloses. Qed.
Lemma exact_shrinks b : rad b = Some (mkArf 0 0) -> shrinks (fun _ => b).
Proof. intros E. exists 0, 0%Z. intros prec _. exists (mkArf 0 0). split; [exact E|]. unfold arf2R. cbn. lra. Qed.
Lemma int_arb_shrinks (c : Z) : shrinks (int_arb c).
Proof. apply exact_shrinks. reflexivity. Qed.
Lemma arb_of_Q_cases mag_up prec n d : (0 < prec)%Z -> (0 < d)%Z -> let b := arb_of_Q mag_up prec n d in
  (b = arb_of_arf (mid b) /\ arf2R (mid b) = IZR n / IZR d) \/
  (IZR n / IZR d <> 0 /\ exists r, rad b = Some (mag_up r) /\ arf2R r = bpow radix2 (mag radix2 (IZR n / IZR d) - prec) /\ Rabs (IZR n / IZR d - arf2R (mid b)) <= arf2R r).
Proof.
  intros Hp Hd b. assert (D : 0 < IZR d) by (apply (IZR_lt 0), Hd). assert (P : Prec_gt_0 prec) by exact Hp.
  pose proof (round_q_spec DOWN prec n d 0 Hp Hd) as E. change (bpow radix2 0) with 1 in E. rewrite Rmult_1_r in E. cbn [rndZ] in E.
  subst b. unfold arb_of_Q. set (m := round_q DOWN prec n d 0) in *. destruct (arf_eqb _ _) eqn:Q.
  - left. apply arf_eqb_spec in Q. rewrite arf_mul_exact_spec, !arf_of_Z_spec in Q. split; [reflexivity|]. cbn. rewrite <- Q. field. lra.
  - right. assert (N : IZR n / IZR d <> 0).
    { intros Z0. assert (n = 0%Z) as ->. { apply eq_IZR. apply Rmult_eq_reg_r with (/ IZR d); [|apply Rinv_neq_0_compat; lra]. fold (IZR n / IZR d). rewrite Z0. lra. }
      assert (T : arf_eqb (arf_mul_exact m (arf_of_Z d)) (arf_of_Z 0) = true); [|congruence]. apply arf_eqb_spec. rewrite arf_mul_exact_spec, !arf_of_Z_spec, E. unfold Rdiv. rewrite Rmult_0_l, round_0 by exact _. ring. }
    split; [exact N|]. eexists. split; [reflexivity|].
    assert (Nm : arf2R m <> 0). { rewrite E. apply round_neq_0_negligible_exp; [exact _|exact (negligible_exp_FLX prec)|exact _|exact N]. }
    assert (Na : am m <> 0%Z). { intros Z0. apply Nm. unfold arf2R. rewrite Z0. ring. }
    assert (Mg : mag radix2 (arf2R m) = mag radix2 (IZR n / IZR d) :> Z). { rewrite E. apply mag_round_ZR; [exact _|]. rewrite <- E. exact Nm. }
    assert (V : arf2R (mkArf 1 (arf_expo m - prec)) = bpow radix2 (mag radix2 (IZR n / IZR d) - prec)). { unfold arf2R. cbn [am ae]. rewrite Rmult_1_l, (arf_expo_mag m Na), Mg. reflexivity. }
    split; [exact V|]. rewrite V. cbn [mid]. rewrite E, Rabs_minus_sym. left. eapply Rlt_le_trans; [apply error_lt_ulp; [exact _|exact _|exact N]|].
    rewrite ulp_neq_0 by exact N. unfold cexp, FLX_exp. right. reflexivity.
Qed.
Lemma arb_of_Q_encloses mag_up prec n d : mag_up_ok mag_up -> (0 < prec)%Z -> (0 < d)%Z -> encloses (arb_of_Q mag_up prec n d) (IZR n / IZR d).
Proof.
  intros Hm Hp Hd. destruct (arb_of_Q_cases mag_up prec n d Hp Hd) as [[E V]|(_ & r & Er & Vr & B)].
  - rewrite E. split; [apply arb_of_arf_wf|]. unfold contains. cbn. rewrite V, Rminus_diag_eq, Rabs_R0 by reflexivity. unfold arf2R. cbn. lra.
  - assert (P : 0 <= arf2R r) by (rewrite Vr; left; apply bpow_gt_0). pose proof (Hm r P) as M. split.
    + unfold arb_wf. rewrite Er. apply le_IZR. apply Rmult_le_reg_r with (bpow radix2 (ae (mag_up r))); [apply bpow_gt_0|]. rewrite Rmult_0_l. change (0 <= arf2R (mag_up r)). lra.
    + unfold contains. rewrite Er. lra.
Qed.
Lemma arb_of_Q_shrinks mag_up n d : mag_up_tight mag_up -> (0 < d)%Z -> shrinks (fun prec => arb_of_Q mag_up prec n d).
Proof.
  intros Ht Hd. exists (2 * bpow radix2 (mag radix2 (IZR n / IZR d))), 1%Z. intros prec Hp. destruct (arb_of_Q_cases mag_up prec n d ltac:(lia) Hd) as [[E V]|(_ & r & Er & Vr & B)].
  - exists (mkArf 0 0). split; [rewrite E; reflexivity|]. unfold arf2R at 1. cbn [am ae]. rewrite Rmult_0_l. apply Rmult_le_pos; [apply Rmult_le_pos; [lra|]|]; left; apply bpow_gt_0.
  - exists (mag_up r). split; [exact Er|]. eapply Rle_trans; [apply Ht; rewrite Vr; left; apply bpow_gt_0|]. rewrite Vr. unfold Zminus. rewrite bpow_plus. lra.
Qed.
Lemma rat_arb_encloses mag_up p : mag_up_ok mag_up -> coefficients_enclosed rat_sem (rat_arb mag_up) p.
Proof. intros Hm c prec _ Hp. cbn [val rat_sem]. rewrite qc_num_den. apply arb_of_Q_encloses; [exact Hm|exact Hp|reflexivity]. Qed.
Lemma rat_arb_shrinks mag_up (c : Qc) : mag_up_tight mag_up -> shrinks (rat_arb mag_up c).
Proof. intros Ht. apply (arb_of_Q_shrinks mag_up (qc_num c) (qc_den c) Ht). reflexivity. Qed.

(** * Generators: the balls of the code *)
Lemma ball_rad_small m prec v : RealProofs5.near 4 prec m v -> (2 <= prec)%Z -> ball_rad m prec <= (Rabs v + 1) * bpow radix2 (- prec).
Proof.
  intros N Hp. unfold ball_rad. pose proof (bpow_gt_0 radix2 (- prec)) as B.
  assert (Eb : forall e, bpow radix2 (e - 2 - prec) = bpow radix2 (e - 1) * bpow radix2 (- prec) / 2).
  { intros e. replace (e - 2 - prec)%Z with ((e - 1) + (- prec) + (-1))%Z by lia. rewrite !bpow_plus. change (bpow radix2 (-1)) with (/ 2). reflexivity. }
  destruct (Z.eq_dec (am m) 0) as [Z0|Nz].
  - assert (arf_expo m = 0%Z) as -> by (unfold arf_expo; rewrite Z0; reflexivity). rewrite Eb. assert (bpow radix2 (0 - 1) = / 2) as -> by reflexivity. pose proof (Rabs_pos v). nra.
  - pose proof (arf_expo_spec m Nz) as [L _]. destruct N as [[_ M0]|[_ H]].
    { exfalso. apply Nz. unfold arf2R in M0. apply Rmult_integral in M0. destruct M0 as [M0|M0]; [apply eq_IZR, M0|pose proof (bpow_gt_0 radix2 (ae m)); lra]. }
    unfold ball_rad in H. rewrite Eb in *. set (w := bpow radix2 (arf_expo m - 1)) in *. assert (P : 0 < w) by apply bpow_gt_0.
    assert (B4 : bpow radix2 (- prec) <= / 4) by (change (/ 4) with (bpow radix2 (-2)); apply bpow_le; lia).
    assert (w * bpow radix2 (- prec) <= w * / 4) by (apply Rmult_le_compat_l; lra).
    assert (Rabs (arf2R m) <= Rabs v + Rabs (v - arf2R m)). { replace (arf2R m) with (v - (v - arf2R m)) at 1 by ring. eapply Rle_trans; [apply Rabs_triang|]. rewrite Rabs_Ropp. lra. }
    assert (w <= 2 * Rabs v) by lra. assert (w * bpow radix2 (- prec) <= 2 * Rabs v * bpow radix2 (- prec)) by (apply Rmult_le_compat_r; lra). lra.
Qed.
Lemma rnum_of_value rng names rho g : code_values rng names rho -> num_value rng (rnum_of names g) (gen_val rho g).
Proof.
  intros H. destruct g as [q|i|ms]; cbn; [reflexivity|apply H|]. induction ms as [|[i e] ms IH]; cbn; [reflexivity|].
  exists (rho i), (mons_val rho ms). split; [apply H|]. split; [exact IH|reflexivity].
Qed.
Lemma mons_wf_pos ms : forall lo, mons_wf lo ms -> forall i e, In (i, e) ms -> (0 < e)%nat.
Proof. induction ms as [|[j f] ms IH]; intros lo W i e H; [destruct H|]. destruct W as (_ & P & W). destruct H as [H|H]; [injection H as <- <-; exact P|apply (IH _ W i e H)]. Qed.
Lemma rnum_of_ok rng names rho g : code_values rng names rho -> gen_wf g -> num_ok rng (rnum_of names g).
Proof.
  intros H W. destruct g as [q|i|ms]; cbn; [exact I|apply H|]. destruct W as [W D]. split.
  - destruct ms; [cbn in D; lia|discriminate].
  - intros a e Ha. apply in_map_iff in Ha. destruct Ha as ([i f] & E & Hi). injection E as <- <-. split; [apply H|apply (mons_wf_pos ms 0%Z W i f Hi)].
Qed.
Section Code.
  Variable rng : Z -> nat -> bool.
  Variable names : Z -> atom.
  Variable rho : Z -> R.
  Hypothesis HV : code_values rng names rho.
  Variable garb : gen -> Z -> arb.
  Variable gs : list gen.
  Hypothesis HB : code_balls rng names garb gs.
  Hypothesis HW : Forall gen_wf gs.
  Lemma code_ball g prec : In g gs -> (2 <= prec)%Z -> exists m, garb g prec = refine_ball m prec /\ RealProofs5.near 4 prec m (gen_val rho g).
  Proof.
    intros Hg Hp. destruct (HB g prec Hg Hp) as [fuel E]. rewrite num_arb_eq in E by lia. destruct (num_arf rng fuel (rnum_of names g) prec) as [m|] eqn:Em; [|discriminate]. injection E as E. exists m. split; [symmetry; exact E|].
    rewrite Forall_forall in HW. apply (num_near4 rng (rnum_of names g) (gen_val rho g) fuel); [|apply rnum_of_value, HV|lia|exact Em]. apply (rnum_of_ok rng names rho g HV), HW, Hg.
  Qed.
  Lemma code_balls_within : generators_within 4 garb rho gs.
  Proof.
    intros g prec Hg Hp. destruct (code_ball g prec Hg Hp) as (m & E & N). rewrite E. destruct (refine_ball_rad m prec) as (r & Er & _). split; [apply refine_ball_wf|]. rewrite Er.
    cbn [mid refine_ball]. apply (near_ball 4 prec m _ r N); [lra|exact Er].
  Qed.
  Lemma code_balls_shrink g : In g gs -> shrinks (garb g).
  Proof.
    intros Hg. exists (Rabs (gen_val rho g) + 1), 2%Z. intros prec Hp. destruct (code_ball g prec Hg Hp) as (m & E & N). rewrite E. destruct (refine_ball_rad m prec) as (r & Er & Vr). exists r. split; [exact Er|]. rewrite Vr. apply ball_rad_small; assumption.
  Qed.
  Lemma code_balls_accurate g prec : In g gs -> (2 <= prec)%Z -> gen_val rho g <> 0 -> is_accurate prec (garb g prec) = true.
  Proof.
    intros Hg Hp V. destruct (code_ball g prec Hg Hp) as (m & E & N). rewrite E. unfold is_accurate. rewrite refine_ball_accuracy; [rewrite Z.leb_refl; apply orb_true_r|]. destruct N as [[Z0 _]|[Nz _]]; [contradiction|exact Nz].
  Qed.
End Code.
(** There are such balls: the digits can always be computed. *)
From Coq Require Import ConstructiveEpsilon.
Lemma code_balls_exist rng names rho gs : code_values rng names rho -> Forall gen_wf gs -> exists garb, code_balls rng names garb gs.
Proof.
  intros HV HW. assert (K : forall g prec, gen_wf g -> (0 <= prec)%Z -> exists fuel, num_arb rng fuel (rnum_of names g) prec <> None).
  { intros g prec W Hp. destruct (num_arf_returns rng (rnum_of names g) prec (rnum_of_ok rng names rho g HV W)) as (f0 & a & H). exists f0. rewrite num_arb_eq by exact Hp. rewrite (H f0 (le_n _)). discriminate. }
  assert (W : forall g, {gen_wf g} + {~ gen_wf g}).
  { intros [q|i|ms]; cbn; [left; exact I|apply Z_le_dec|]. assert (D : forall lo, {mons_wf lo ms} + {~ mons_wf lo ms}).
    { induction ms as [|[i e] ms IH]; intros lo; cbn; [left; exact I|]. destruct (Z_le_dec lo i), (lt_dec 0 e), (IH (i + 1)%Z); tauto. }
    destruct (D 0%Z), (le_dec 2 (sum_exponents ms)); tauto. }
  assert (DN : forall o : option arb, {o <> None} + {~ o <> None}) by (intros [b|]; [left; discriminate|right; intros H; apply H; reflexivity]).
  exists (fun g prec => match W g with
    | left Hw => match Z_le_dec 0 prec with
      | left Hp => match num_arb rng (proj1_sig (constructive_indefinite_ground_description_nat (fun fuel => num_arb rng fuel (rnum_of names g) prec <> None)
                      (fun fuel => DN (num_arb rng fuel (rnum_of names g) prec)) (K g prec Hw Hp))) (rnum_of names g) prec with Some b => b | None => arb_zero_pm_inf end
      | right _ => arb_zero_pm_inf end
    | right _ => arb_zero_pm_inf end).
  intros g prec Hg Hp. rewrite Forall_forall in HW. destruct (W g) as [Hw|Nw]; [|exfalso; apply Nw, HW, Hg]. destruct (Z_le_dec 0 prec) as [H0|H0]; [|lia].
  destruct (constructive_indefinite_ground_description_nat _ _ _) as [fuel Hf]. cbn [proj1_sig]. exists fuel. destruct (num_arb rng fuel (rnum_of names g) prec); [reflexivity|contradiction].
Qed.
