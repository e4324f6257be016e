(** Balls of real numbers and comparisons. *)
From Coq Require Import ZArith QArith Bool List Reals Lia Lra Psatz Qreals.
From Flocq Require Import Core.
From Verif Require Import Arf Arb SpecArf ArfProofs ArbProofs Real SpecReal RealProofs RealProofs2 RealProofs3 RealProofs4.
Import ListNotations.
Open Scope R_scope.

Definition ball_rad (m : arf) (prec : Z) : R := bpow radix2 (arf_expo m - 2 - prec).

Lemma refine_ball_rad m prec : exists r, rad (refine_ball m prec) = Some r /\ arf2R r = ball_rad m prec.
Proof.
  eexists. split; [reflexivity|]. unfold arf2R, ball_rad. cbn [am ae]. rewrite Rmult_1_l. f_equal. lia.
Qed.

Lemma refine_ball_wf m prec : arb_wf (refine_ball m prec).
Proof. unfold arb_wf, refine_ball. cbn. lia. Qed.

Lemma refine_ball_accuracy m prec : arf2R m <> 0 -> rel_accuracy_bits (refine_ball m prec) = prec.
Proof.
  intros Hm. unfold rel_accuracy_bits, refine_ball. cbn [rad mid am].
  change (1 =? 0)%Z with false. cbv iota.
  destruct (Z.eqb_spec (am m) 0) as [C|C]; [apply arf2R_eq0 in C; contradiction|].
  unfold arf_expo at 2. cbn [am ae]. change (1 =? 0)%Z with false. cbv iota.
  change (Z.log2 (Z.abs 1)) with 0%Z. lia.
Qed.

Lemma refine_ball_accuracy_le m prec : (0 <= prec)%Z -> (rel_accuracy_bits (refine_ball m prec) <= prec)%Z.
Proof.
  intros Hp. destruct (Req_dec (arf2R m) 0) as [C|C]; [|rewrite refine_ball_accuracy by exact C; lia].
  apply arf2R_eq0 in C. unfold rel_accuracy_bits, refine_ball. cbn [rad mid am].
  change (1 =? 0)%Z with false. cbv iota. rewrite C. change (0 =? 0)%Z with true. cbv iota.
  unfold ARF_PREC_EXACT. lia.
Qed.

Lemma op_lt_refine a b p q :
  (op_lt (refine_ball a p) (refine_ball b q) = Some true -> arf2R a + ball_rad a p < arf2R b - ball_rad b q) /\
  (op_lt (refine_ball a p) (refine_ball b q) = Some false -> arf2R b + ball_rad b q <= arf2R a - ball_rad a p) /\
  (op_lt (refine_ball a p) (refine_ball b q) = None ->
     arf2R b - ball_rad b q <= arf2R a + ball_rad a p /\ arf2R a - ball_rad a p < arf2R b + ball_rad b q).
Proof.
  unfold op_lt, arb_lt, arb_ge, arb_le, arb_hi, arb_lo, opt2.
  destruct (refine_ball_rad a p) as (ra & Ea & Ha). destruct (refine_ball_rad b q) as (rb & Eb & Hb).
  rewrite Ea, Eb. cbn [option_map refine_ball mid].
  destruct (arf_ltb _ _) eqn:E1; [|destruct (arf_leb _ _) eqn:E2].
  - apply arf_ltb_spec in E1. rewrite arf_add_exact_spec, arf_sub_exact_spec, Ha, Hb in E1.
    repeat split; try discriminate. intros _. exact E1.
  - apply arf_leb_spec in E2. rewrite arf_add_exact_spec, arf_sub_exact_spec, Ha, Hb in E2.
    repeat split; try discriminate. intros _. exact E2.
  - apply arf_ltb_false in E1. apply arf_leb_false in E2.
    rewrite arf_add_exact_spec, arf_sub_exact_spec, Ha, Hb in E1, E2.
    repeat split; try discriminate; lra.
Qed.

Lemma op_lt_refine_arf a b p :
  (op_lt (refine_ball a p) (arb_of_arf b) = Some true -> arf2R a + ball_rad a p < arf2R b) /\
  (op_lt (refine_ball a p) (arb_of_arf b) = Some false -> arf2R b <= arf2R a - ball_rad a p) /\
  (op_lt (refine_ball a p) (arb_of_arf b) = None ->
     arf2R b <= arf2R a + ball_rad a p /\ arf2R a - ball_rad a p < arf2R b).
Proof.
  unfold op_lt, arb_lt, arb_ge, arb_le, arb_hi, arb_lo, opt2.
  destruct (refine_ball_rad a p) as (ra & Ea & Ha).
  rewrite Ea. cbn [option_map refine_ball mid rad arb_of_arf].
  destruct (arf_ltb _ _) eqn:E1; [|destruct (arf_leb _ _) eqn:E2].
  - apply arf_ltb_spec in E1. rewrite arf_add_exact_spec, arf_sub_exact_spec, Ha, arf_zero_spec in E1.
    repeat split; try discriminate. intros _. lra.
  - apply arf_leb_spec in E2. rewrite arf_add_exact_spec, arf_sub_exact_spec, Ha, arf_zero_spec in E2.
    repeat split; try discriminate. intros _. lra.
  - apply arf_ltb_false in E1. apply arf_leb_false in E2.
    rewrite arf_add_exact_spec, arf_sub_exact_spec, Ha, arf_zero_spec in E1, E2.
    repeat split; try discriminate; lra.
Qed.

Lemma ball_rad_pos m p : 0 < ball_rad m p.
Proof. apply bpow2_pos. Qed.

(** [m] is the midpoint of a ball of precision [prec] for the value [v]: the error is
    at most [k] radii. *)
Definition near (k : R) (prec : Z) (m : arf) (v : R) : Prop :=
  (v = 0 /\ arf2R m = 0) \/ (arf2R m <> 0 /\ Rabs (v - arf2R m) <= k * ball_rad m prec).

Lemma accurate_near p m v : arf2R m <> 0 -> accurate p m v -> near 2 p m v.
Proof.
  intros Hm Ha. right. split; [exact Hm|]. unfold ball_rad.
  assert (am m <> 0%Z) by (intros C; apply Hm, arf2R_eq0, C).
  rewrite arf_expo_mag by assumption. eapply Rle_trans; [exact Ha|].
  replace (mag radix2 (arf2R m) - 1 - p)%Z with (1 + (mag radix2 (arf2R m) - 2 - p))%Z by lia.
  rewrite bpow_plus. right. reflexivity.
Qed.

Lemma accurate_near4 p m v : arf2R m <> 0 -> accurate (p - 1) m v -> near 4 p m v.
Proof.
  intros Hm Ha. destruct (accurate_near (p - 1) m v Hm Ha) as [[_ C]|[_ H]]; [contradiction|].
  right. split; [exact Hm|]. unfold ball_rad in *.
  replace (arf_expo m - 2 - (p - 1))%Z with (1 + (arf_expo m - 2 - p))%Z in H by lia.
  rewrite bpow_plus in H. change (bpow radix2 1) with 2 in H. lra.
Qed.

Lemma near_weaken k k' p m v : k <= k' -> near k p m v -> near k' p m v.
Proof.
  intros Hk [H|[H1 H2]]; [left; exact H|right; split; [exact H1|]].
  pose proof (ball_rad_pos m p). nra.
Qed.

Lemma rational_zero q : (q == 0)%Q -> Q2R q = 0.
Proof. intros H. rewrite (Qeq_eqR _ _ H). unfold Q2R. simpl. lra. Qed.

Lemma rational_neq0 q : ~ (q == 0)%Q -> Q2R q <> 0.
Proof. intros H C. apply H. apply eqR_Qeq. rewrite C. unfold Q2R. simpl. lra. Qed.

Lemma arf_rational_zero q prec : (1 <= prec)%Z -> Q2R q = 0 -> arf2R (arf_rational q prec) = 0.
Proof. intros Hp H. rewrite arf_rational_spec by exact Hp. rewrite H. apply round_0. auto with typeclass_instances. Qed.

Lemma num_near rng x v fuel prec m : not_product x -> num_ok rng x -> num_value rng x v -> (1 <= prec)%Z ->
  num_arf rng fuel x prec = Some m -> near 2 prec m v.
Proof.
  intros Hnp Hok Hv Hp Hm. unfold num_arf in Hm. fold (clamp prec) in Hm. rewrite clamp_pos in Hm by exact Hp.
  destruct x as [q|a|ms]; [| |destruct Hnp].
  - injection Hm as <-. simpl in Hv. subst v. destruct (Qeq_dec q 0) as [Hq|Hq].
    + left. split; [apply rational_zero; exact Hq|]. apply arf_rational_zero; [exact Hp|apply rational_zero; exact Hq].
    + apply accurate_near; [|apply rational_accurate; assumption].
      rewrite arf_rational_spec by exact Hp. apply rndN_neq0; [lia|]. apply rational_neq0; exact Hq.
  - destruct (atom_accurate rng a v fuel prec m Hok Hv Hm) as [Ha H0]. rewrite clamp_pos in Ha by exact Hp.
    apply accurate_near; assumption.
Qed.

Lemma num_near4 rng x v fuel prec m : num_ok rng x -> num_value rng x v -> (1 <= prec)%Z ->
  num_arf rng fuel x prec = Some m -> near 4 prec m v.
Proof.
  intros Hok Hv Hp Hm. destruct x as [q|a|ms].
  - apply near_weaken with 2; [lra|]. apply (num_near rng (RRat q) v fuel prec m); simpl; auto; lia.
  - apply near_weaken with 2; [lra|]. apply (num_near rng (RAtom a) v fuel prec m); simpl; auto; lia.
  - unfold num_arf in Hm. fold (clamp prec) in Hm. rewrite clamp_pos in Hm by lia.
    destruct (prod_accurate rng ms v fuel prec m Hok Hv Hp Hm) as [Ha H0]. apply accurate_near4; assumption.
Qed.

(** Size of the radius relative to the midpoint. *)
Lemma ball_rad_mid m p : arf2R m <> 0 -> ball_rad m p <= Rabs (arf2R m) * bpow radix2 (- 1 - p).
Proof.
  intros Hm. assert (Ha : am m <> 0%Z) by (intros C; apply Hm, arf2R_eq0, C).
  destruct (arf_expo_spec m Ha) as [H _]. unfold ball_rad.
  replace (arf_expo m - 2 - p)%Z with ((arf_expo m - 1) + (- 1 - p))%Z by lia. rewrite bpow_plus.
  apply Rmult_le_compat_r; [left; apply bpow2_pos|exact H].
Qed.

(** At precision at least 2 (error 4 radii) the number and the midpoint have comparable size and the same sign. *)
Lemma near4_size p m v : (2 <= p)%Z -> near 4 p m v ->
  Rabs (arf2R m) <= 2 * Rabs v /\ (0 < v <-> 0 < arf2R m) /\ (v < 0 <-> arf2R m < 0).
Proof.
  intros Hp [[-> ->]|[Hm H]].
  - rewrite Rabs_R0. repeat split; lra.
  - pose proof (ball_rad_mid m p Hm) as Hr.
    assert (Hb : bpow radix2 (-1 - p) <= / 8).
    { apply Rle_trans with (bpow radix2 (-3)); [apply bpow_le; lia|]. simpl. lra. }
    assert (Hpos : 0 < Rabs (arf2R m)) by (apply Rabs_pos_lt; exact Hm).
    assert (Hd : Rabs (v - arf2R m) <= Rabs (arf2R m) / 2) by nra.
    unfold Rabs in *. destruct (Rcase_abs v); destruct (Rcase_abs (arf2R m)); destruct (Rcase_abs (v - arf2R m)); repeat split; try lra.
Qed.

Lemma near_bounds p m v : (2 <= p)%Z -> near 4 p m v ->
  Rabs (v - arf2R m) + ball_rad m p <= 5 * (Rabs v + 1) * bpow radix2 (- p).
Proof.
  intros Hp Hn. destruct (near4_size p m v Hp Hn) as (Hs & _). destruct Hn as [[-> H0]|[Hm H]].
  - rewrite H0, Rminus_0_r, Rabs_R0. unfold ball_rad. apply arf2R_eq0 in H0.
    unfold arf_expo. rewrite H0. change (0 =? 0)%Z with true. cbv iota.
    assert (bpow radix2 (0 - 2 - p) <= bpow radix2 (- p)) by (apply bpow_le; lia). pose proof (bpow2_pos (- p)). lra.
  - pose proof (ball_rad_mid m p Hm) as Hr.
    assert (E : bpow radix2 (- p) = 2 * bpow radix2 (-1 - p)).
    { replace (- p)%Z with (1 + (-1 - p))%Z by lia. rewrite bpow_plus. reflexivity. }
    pose proof (bpow2_pos (-1 - p)). pose proof (Rabs_pos v). rewrite E. nra.
Qed.

(** State of the comparison loop: the balls are from lower precision. *)
Definition stale (b : arb) (prec : Z) : Prop := (rel_accuracy_bits b < prec)%Z.

Lemma stale_inf prec : (0 <= prec)%Z -> stale arb_zero_pm_inf prec.
Proof. intros H. unfold stale, rel_accuracy_bits. simpl. unfold ARF_PREC_EXACT. lia. Qed.

Lemma stale_refine m prec : (1 <= prec)%Z -> stale (refine_ball m prec) (prec * 2).
Proof. intros H. unfold stale. pose proof (refine_ball_accuracy_le m prec). lia. Qed.

Lemma num_refine_stale rng fuel x b prec : stale b prec ->
  num_refine rng fuel x b prec = option_map (fun m => refine_ball m prec) (num_arf rng fuel x prec).
Proof. intros H. unfold num_refine. destruct (Z.leb_spec prec (rel_accuracy_bits b)); [unfold stale in H; lia|reflexivity]. Qed.

(** What a finished comparison saw. *)
Lemma num_lt_loop_result rng x y : forall iters fuel self other prec r, (1 <= prec)%Z -> stale self prec -> stale other prec ->
  num_lt_loop rng iters fuel x y self other prec = Some r ->
  exists p a b, (prec <= p)%Z /\ num_arf rng fuel x p = Some a /\ num_arf rng fuel y p = Some b /\
    op_lt (refine_ball a p) (refine_ball b p) = Some r.
Proof.
  induction iters as [|iters IH]; intros fuel self other prec r Hp Hs Ho; cbn [num_lt_loop]; [discriminate|].
  rewrite !num_refine_stale by assumption.
  destruct (num_arf rng fuel x prec) as [a|] eqn:Ea; cbn [option_map]; [|discriminate].
  destruct (num_arf rng fuel y prec) as [b|] eqn:Eb; cbn [option_map]; [|discriminate].
  destruct (op_lt (refine_ball a prec) (refine_ball b prec)) as [r'|] eqn:E.
  - intros [= ->]. exists prec, a, b. repeat split; auto. lia.
  - intros H. apply IH in H; [|lia|apply stale_refine; lia|apply stale_refine; lia].
    destruct H as (p & a' & b' & H1 & H2). exists p, a', b'. split; [lia|exact H2].
Qed.

Lemma num_lt_result rng iters fuel x y r : num_lt rng iters fuel x y = Some r ->
  (rnum_eqb x y = true /\ r = false) \/
  exists p a b, (2 <= p)%Z /\ num_arf rng fuel x p = Some a /\ num_arf rng fuel y p = Some b /\
    op_lt (refine_ball a p) (refine_ball b p) = Some r.
Proof.
  unfold num_lt. destruct (rnum_eqb x y); [intros [= <-]; left; auto|]. intros H. right.
  apply num_lt_loop_result in H; [exact H|lia|apply stale_inf; lia|apply stale_inf; lia].
Qed.

Lemma num_lt_arf_loop_result rng x w : forall iters fuel self prec r, (1 <= prec)%Z -> stale self prec ->
  num_lt_arf_loop rng iters fuel x w self prec = Some r ->
  exists p a, (prec <= p)%Z /\ num_arf rng fuel x p = Some a /\
    op_lt (refine_ball a p) (arb_of_arf w) = Some r.
Proof.
  induction iters as [|iters IH]; intros fuel self prec r Hp Hs; cbn [num_lt_arf_loop]; [discriminate|].
  rewrite !num_refine_stale by assumption.
  destruct (num_arf rng fuel x prec) as [a|] eqn:Ea; cbn [option_map]; [|discriminate].
  destruct (op_lt (refine_ball a prec) (arb_of_arf w)) as [r'|] eqn:E.
  - intros [= ->]. exists prec, a. repeat split; auto. lia.
  - intros H. apply IH in H; [|lia|apply stale_refine; lia].
    destruct H as (p & a' & H1 & H2). exists p, a'. split; [lia|exact H2].
Qed.

(** Termination. *)
Lemma bpow_small (C d : R) : 0 < d -> exists n0, (0 <= n0)%Z /\ forall n, (n0 <= n)%Z -> C * bpow radix2 (- n) < d.
Proof.
  intros Hd. destruct (Rle_or_lt C 0) as [HC|HC].
  - exists 0%Z. split; [lia|]. intros n _. pose proof (bpow2_pos (- n)). nra.
  - exists (Z.max 0 (up (C / d))). split; [lia|]. intros n Hn.
    destruct (archimed (C / d)) as [Hup _].
    assert (H1 : C / d < bpow radix2 n).
    { eapply Rlt_le_trans; [exact Hup|]. rewrite <- IZR_pow2 by lia. apply IZR_le.
      assert (n < 2 ^ n)%Z by (apply Z.pow_gt_lin_r; lia). lia. }
    rewrite bpow_opp. apply Rmult_lt_reg_r with (bpow radix2 n); [apply bpow2_pos|].
    rewrite Rmult_assoc, Rinv_l, Rmult_1_r by (apply bpow_neq0).
    apply Rmult_lt_reg_r with (/ d); [apply Rinv_0_lt_compat; exact Hd|].
    replace (d * bpow radix2 n * / d) with (bpow radix2 n) by (field; lra). exact H1.
Qed.

Section Termination.
  Variables (rng : Z -> nat -> bool) (x y : rnum) (v w : R).
  Hypotheses (Hx : num_ok rng x) (Hy : num_ok rng y) (Hv : num_value rng x v) (Hw : num_value rng y w) (Hne : v <> w).

  Lemma decided_eventually : exists p0, forall p fuel a b, (p0 <= p)%Z -> (2 <= p)%Z ->
    num_arf rng fuel x p = Some a -> num_arf rng fuel y p = Some b ->
    op_lt (refine_ball a p) (refine_ball b p) = Some (if Rlt_dec v w then true else false).
  Proof.
    destruct (bpow_small (5 * (Rabs v + 1) + 5 * (Rabs w + 1)) (Rabs (v - w))) as (n0 & Hn0 & Hn).
    { apply Rabs_pos_lt. lra. }
    exists n0. intros p fuel a b Hp Hp2 Ha Hb.
    pose proof (near_bounds p a v Hp2 (num_near4 rng x v fuel p a Hx Hv ltac:(lia) Ha)) as Bx.
    pose proof (near_bounds p b w Hp2 (num_near4 rng y w fuel p b Hy Hw ltac:(lia) Hb)) as By.
    specialize (Hn p Hp).
    destruct (op_lt_refine a b p p) as (A & B & C).
    destruct (op_lt (refine_ball a p) (refine_ball b p)) as [[]|]; [specialize (A eq_refl)|specialize (B eq_refl)|specialize (C eq_refl)];
      pose proof (ball_rad_pos a p); pose proof (ball_rad_pos b p);
      destruct (Rlt_dec v w); try reflexivity; exfalso;
      unfold Rabs in *; destruct (Rcase_abs v); destruct (Rcase_abs w);
      destruct (Rcase_abs (v - arf2R a)); destruct (Rcase_abs (w - arf2R b)); destruct (Rcase_abs (v - w)); lra.
  Qed.

  Lemma num_lt_loop_terminates : forall n prec self other, (2 <= prec)%Z -> stale self prec -> stale other prec ->
    (forall fuel a b, num_arf rng fuel x (prec * 2 ^ Z.of_nat n) = Some a -> num_arf rng fuel y (prec * 2 ^ Z.of_nat n) = Some b ->
       op_lt (refine_ball a (prec * 2 ^ Z.of_nat n)) (refine_ball b (prec * 2 ^ Z.of_nat n)) <> None) ->
    exists iters0 fuel0 r, forall iters fuel, (iters0 <= iters)%nat -> (fuel0 <= fuel)%nat ->
      num_lt_loop rng iters fuel x y self other prec = Some r.
  Proof.
    induction n as [|n IH]; intros prec self other Hp Hs Ho Hdec;
      destruct (num_arf_returns rng x prec Hx) as (f1 & a & Ha);
      destruct (num_arf_returns rng y prec Hy) as (f2 & b & Hb).
    - rewrite Z.mul_1_r in Hdec.
      destruct (op_lt (refine_ball a prec) (refine_ball b prec)) as [r|] eqn:E.
      + exists 1%nat, (Nat.max f1 f2), r. intros [|iters] fuel Hi Hf; [lia|]. cbn [num_lt_loop].
        rewrite !num_refine_stale, Ha, Hb by (assumption || lia). cbn [option_map]. rewrite E. reflexivity.
      + exfalso. apply (Hdec (Nat.max f1 f2) a b); [apply Ha; lia|apply Hb; lia|exact E].
    - destruct (op_lt (refine_ball a prec) (refine_ball b prec)) as [r|] eqn:E.
      + exists 1%nat, (Nat.max f1 f2), r. intros [|iters] fuel Hi Hf; [lia|]. cbn [num_lt_loop].
        rewrite !num_refine_stale, Ha, Hb by (assumption || lia). cbn [option_map]. rewrite E. reflexivity.
      + destruct (IH (prec * 2)%Z (refine_ball a prec) (refine_ball b prec)) as (i0 & f0 & r & Hr).
        * lia.
        * apply stale_refine; lia.
        * apply stale_refine; lia.
        * intros fuel a' b'. replace (prec * 2 * 2 ^ Z.of_nat n)%Z with (prec * 2 ^ Z.of_nat (S n))%Z; [apply Hdec|].
          rewrite Nat2Z.inj_succ, Z.pow_succ_r by lia. lia.
        * exists (S i0), (Nat.max (Nat.max f1 f2) f0), r. intros [|iters] fuel Hi Hf; [lia|]. cbn [num_lt_loop].
          rewrite !num_refine_stale, Ha, Hb by (assumption || lia). cbn [option_map]. rewrite E. apply Hr; lia.
  Qed.

  Lemma num_lt_terminates : exists iters0 fuel0 r, forall iters fuel, (iters0 <= iters)%nat -> (fuel0 <= fuel)%nat ->
    num_lt rng iters fuel x y = Some r.
  Proof.
    unfold num_lt. destruct (rnum_eqb x y); [exists 0%nat, 0%nat, false; reflexivity|].
    destruct decided_eventually as [p0 Hp0].
    apply (num_lt_loop_terminates (Z.to_nat p0)); [lia|apply stale_inf; lia|apply stale_inf; lia|].
    intros fuel a b Ha Hb.
    assert (Hpow : (Z.of_nat (Z.to_nat p0) < 2 ^ Z.of_nat (Z.to_nat p0))%Z) by (apply Z.pow_gt_lin_r; lia).
    rewrite (Hp0 _ fuel a b) by (assumption || lia). discriminate.
  Qed.
End Termination.

Section TerminationArf.
  Variables (rng : Z -> nat -> bool) (x : rnum) (v : R) (w : arf).
  Hypotheses (Hx : num_ok rng x) (Hv : num_value rng x v) (Hne : v <> arf2R w).

  Lemma decided_eventually_arf : exists p0, forall p fuel a, (p0 <= p)%Z -> (2 <= p)%Z ->
    num_arf rng fuel x p = Some a ->
    op_lt (refine_ball a p) (arb_of_arf w) = Some (if Rlt_dec v (arf2R w) then true else false).
  Proof.
    destruct (bpow_small (5 * (Rabs v + 1)) (Rabs (v - arf2R w))) as (n0 & Hn0 & Hn).
    { apply Rabs_pos_lt. lra. }
    exists n0. intros p fuel a Hp Hp2 Ha.
    pose proof (near_bounds p a v Hp2 (num_near4 rng x v fuel p a Hx Hv ltac:(lia) Ha)) as Bx.
    specialize (Hn p Hp).
    destruct (op_lt_refine_arf a w p) as (A & B & C).
    destruct (op_lt (refine_ball a p) (arb_of_arf w)) as [[]|]; [specialize (A eq_refl)|specialize (B eq_refl)|specialize (C eq_refl)];
      pose proof (ball_rad_pos a p);
      destruct (Rlt_dec v (arf2R w)); try reflexivity; exfalso;
      unfold Rabs in *; destruct (Rcase_abs v); 
      destruct (Rcase_abs (v - arf2R a)); destruct (Rcase_abs (v - arf2R w)); lra.
  Qed.

  Lemma num_lt_arf_loop_terminates : forall n prec self, (2 <= prec)%Z -> stale self prec ->
    (forall fuel a, num_arf rng fuel x (prec * 2 ^ Z.of_nat n) = Some a ->
       op_lt (refine_ball a (prec * 2 ^ Z.of_nat n)) (arb_of_arf w) <> None) ->
    exists iters0 fuel0 r, forall iters fuel, (iters0 <= iters)%nat -> (fuel0 <= fuel)%nat ->
      num_lt_arf_loop rng iters fuel x w self prec = Some r.
  Proof.
    induction n as [|n IH]; intros prec self Hp Hs Hdec;
      destruct (num_arf_returns rng x prec Hx) as (f1 & a & Ha).
    - rewrite Z.mul_1_r in Hdec.
      destruct (op_lt (refine_ball a prec) (arb_of_arf w)) as [r|] eqn:E.
      + exists 1%nat, f1, r. intros [|iters] fuel Hi Hf; [lia|]. cbn [num_lt_arf_loop].
        rewrite !num_refine_stale, Ha by (assumption || lia). cbn [option_map]. rewrite E. reflexivity.
      + exfalso. apply (Hdec f1 a); [apply Ha; lia|exact E].
    - destruct (op_lt (refine_ball a prec) (arb_of_arf w)) as [r|] eqn:E.
      + exists 1%nat, f1, r. intros [|iters] fuel Hi Hf; [lia|]. cbn [num_lt_arf_loop].
        rewrite !num_refine_stale, Ha by (assumption || lia). cbn [option_map]. rewrite E. reflexivity.
      + destruct (IH (prec * 2)%Z (refine_ball a prec)) as (i0 & f0 & r & Hr).
        * lia.
        * apply stale_refine; lia.
        * intros fuel a'. replace (prec * 2 * 2 ^ Z.of_nat n)%Z with (prec * 2 ^ Z.of_nat (S n))%Z; [apply Hdec|].
          rewrite Nat2Z.inj_succ, Z.pow_succ_r by lia. lia.
        * exists (S i0), (Nat.max f1 f0), r. intros [|iters] fuel Hi Hf; [lia|]. cbn [num_lt_arf_loop].
          rewrite !num_refine_stale, Ha by (assumption || lia). cbn [option_map]. rewrite E. apply Hr; lia.
  Qed.

  Lemma num_lt_arf_terminates : exists iters0 fuel0 r, forall iters fuel, (iters0 <= iters)%nat -> (fuel0 <= fuel)%nat ->
    num_lt_arf rng iters fuel x w = Some r.
  Proof.
    unfold num_lt_arf. destruct (num_eq_arf x w); [exists 0%nat, 0%nat, false; reflexivity|].
    destruct decided_eventually_arf as [p0 Hp0].
    apply (num_lt_arf_loop_terminates (Z.to_nat p0)); [lia|apply stale_inf; lia|].
    intros fuel a Ha.
    assert (Hpow : (Z.of_nat (Z.to_nat p0) < 2 ^ Z.of_nat (Z.to_nat p0))%Z) by (apply Z.pow_gt_lin_r; lia).
    rewrite (Hp0 _ fuel a) by (assumption || lia). discriminate.
  Qed.
End TerminationArf.

(** Right answers: two rationals. *)
Lemma rnum_eqb_rat p q : rnum_eqb (RRat p) (RRat q) = true <-> Q2R p = Q2R q.
Proof. simpl. rewrite Qeq_bool_iff. split; [apply Qeq_eqR|apply eqR_Qeq]. Qed.

Lemma num_lt_rationals rng iters fuel p q r : num_lt rng iters fuel (RRat p) (RRat q) = Some r ->
  (r = true <-> Q2R p < Q2R q).
Proof.
  intros H. apply num_lt_result in H as [[He ->]|(prec & a & b & Hp & Ha & Hb & H)].
  - apply rnum_eqb_rat in He. split; [discriminate|]. lra.
  - unfold num_arf in Ha, Hb. fold (clamp prec) in Ha, Hb. rewrite clamp_pos in Ha, Hb by lia.
    injection Ha as <-. injection Hb as <-.
    pose proof (ball_rad_pos (arf_rational p prec) prec). pose proof (ball_rad_pos (arf_rational q prec) prec).
    assert (PH : Prec_gt_0 prec) by (unfold Prec_gt_0; lia).
    assert (Hmono : forall u w, u <= w -> rndN prec u <= rndN prec w).
    { intros u w. apply round_le; auto with typeclass_instances. }
    destruct (op_lt_refine (arf_rational p prec) (arf_rational q prec) prec prec) as (A & B & _).
    rewrite !arf_rational_spec in A, B by lia.
    destruct r; split; intros G; try reflexivity; try discriminate.
    + specialize (A H). apply Rnot_le_lt. intros C. apply Hmono in C. lra.
    + specialize (B H). apply Rlt_le in G. apply Hmono in G. lra.
Qed.

(** Two random numbers. *)
Lemma prefix_lt_value s t z1 z2 v w prec : (0 <= prec)%Z ->
  s z1 = true -> (forall i, (i < z1)%nat -> s i = false) -> t z2 = true -> (forall i, (i < z2)%nat -> t i = false) ->
  stream_value s v -> stream_value t w ->
  arf2R (random_closed s z1 prec) < arf2R (random_closed t z2 prec) -> v <= w.
Proof.
  intros Hp S1 S0 T1 T0 Hv Hw Hlt.
  pose proof (rc_error s z1 prec v Hv) as E1. pose proof (rc_error t z2 prec w Hw) as E2.
  pose proof (rc_pos s z1 prec S1 S0) as P1. pose proof (rc_range s z1 prec S1 S0) as G1.
  pose proof (rc_mag s z1 prec S1 S0) as M1. pose proof (rc_mag t z2 prec T1 T0) as M2.
  assert (Hm : (mag radix2 (arf2R (random_closed s z1 prec)) <= mag radix2 (arf2R (random_closed t z2 prec)))%Z)
    by (apply mag_le; lra).
  rewrite M1, M2 in Hm.
  set (N1 := (- (Z.of_nat z1 + (clamp prec + 1)))%Z) in *. set (N2 := (- (Z.of_nat z2 + (clamp prec + 1)))%Z) in *.
  assert (HN : (N1 <= N2)%Z) by (unfold N1, N2; lia).
  assert (Hgap : arf2R (random_closed s z1 prec) + bpow radix2 N1 <= arf2R (random_closed t z2 prec)).
  { unfold arf2R, random_closed in *. cbn [am ae] in *. fold N1 N2 in Hlt |- *.
    set (A := prefix s _) in *. set (B := prefix t _) in *.
    assert (EB : IZR B * bpow radix2 N2 = IZR (B * 2 ^ (N2 - N1)) * bpow radix2 N1).
    { rewrite mult_IZR, IZR_pow2 by lia. rewrite Rmult_assoc, <- bpow_plus. f_equal. f_equal. lia. }
    rewrite EB in Hlt |- *. pose proof (bpow2_pos N1).
    assert (A < B * 2 ^ (N2 - N1))%Z by (apply lt_IZR; nra).
    assert (IZR (A + 1) <= IZR (B * 2 ^ (N2 - N1))) by (apply IZR_le; lia). rewrite plus_IZR in *. nra. }
  lra.
Qed.

Lemma num_lt_randoms rng iters fuel s t v w r :
  nonzero_stream (rng s) -> nonzero_stream (rng t) -> stream_value (rng s) v -> stream_value (rng t) w -> v <> w ->
  num_lt rng iters fuel (RAtom (ARandom s)) (RAtom (ARandom t)) = Some r -> (r = true <-> v < w).
Proof.
  intros Ns Nt Hv Hw Hne H. apply num_lt_result in H as [[He ->]|(prec & a & b & Hp & Ha & Hb & H)].
  - simpl in He. apply Z.eqb_eq in He. subst t. exfalso. apply Hne. exact (stream_value_unique _ _ _ Hv Hw).
  - unfold num_arf in Ha, Hb. fold (clamp prec) in Ha, Hb. rewrite clamp_pos in Ha, Hb by lia. simpl in Ha, Hb.
    destruct (first_one _ Ns) as (z1 & S1 & S0). destruct (first_one _ Nt) as (z2 & T1 & T0).
    apply (arf_random_det rng s z1) in Ha; [|assumption|assumption].
    apply (arf_random_det rng t z2) in Hb; [|assumption|assumption].
    pose proof (ball_rad_pos a prec). pose proof (ball_rad_pos b prec).
    destruct (op_lt_refine a b prec prec) as (A & B & _).
    destruct r; split; intros G; try reflexivity; try discriminate.
    + specialize (A H). assert (v <= w); [|lra].
      apply (prefix_lt_value (rng s) (rng t) z1 z2 v w prec); try assumption; [lia|]. rewrite <- Ha, <- Hb. lra.
    + exfalso. specialize (B H). assert (w <= v); [|lra].
      apply (prefix_lt_value (rng t) (rng s) z2 z1 w v prec); try assumption; [lia|]. rewrite <- Ha, <- Hb. lra.
Qed.

(** Comparison with 0 is right for every number. *)
Lemma num_lt_arf_zero rng iters fuel x v w r : num_ok rng x -> num_value rng x v -> v <> 0 -> arf2R w = 0 ->
  num_lt_arf rng iters fuel x w = Some r -> (r = true <-> v < 0).
Proof.
  intros Hx Hv Hv0 Hw H. unfold num_lt_arf in H. destruct (num_eq_arf x w) eqn:E.
  - exfalso. destruct x as [q| |]; try discriminate. simpl in E, Hv. apply arf_eqb_spec in E.
    rewrite arf_mul_exact_spec, Hw, !arf_of_Z_spec in E. apply Hv0. rewrite Hv. unfold Q2R. rewrite <- E. ring.
  - apply num_lt_arf_loop_result in H as (p & a & Hp & Ha & H); [|lia|apply stale_inf; lia].
    pose proof (num_near4 rng x v fuel p a Hx Hv ltac:(lia) Ha) as Hn.
    destruct (near4_size p a v ltac:(lia) Hn) as (_ & S1 & S2).
    destruct (op_lt_refine_arf a w p) as (A & B & _). rewrite Hw in A, B. pose proof (ball_rad_pos a p).
    destruct r; split; intros G; try reflexivity; try discriminate.
    + specialize (A H). apply S2. lra.
    + specialize (B H). apply S2 in G. lra.
Qed.

(** A wrong answer needs nearby numbers. *)
Lemma near2_size p m v : (2 <= p)%Z -> near 2 p m v -> v <> 0 -> ball_rad m p <= Rabs v / 6.
Proof.
  intros Hp [[E _]|[Hm H]] Hv; [contradiction|].
  pose proof (ball_rad_mid m p Hm) as Hr.
  assert (Hb : bpow radix2 (-1 - p) <= / 8).
  { apply Rle_trans with (bpow radix2 (-3)); [apply bpow_le; lia|]. simpl. lra. }
  assert (Hpos : 0 < Rabs (arf2R m)) by (apply Rabs_pos_lt; exact Hm).
  assert (Hr8 : ball_rad m p <= Rabs (arf2R m) / 8) by nra.
  assert (Rabs (arf2R m) <= Rabs v + Rabs (v - arf2R m)).
  { pose proof (Rabs_triang v (- (v - arf2R m))) as T. rewrite Rabs_Ropp in T. replace (v + - (v - arf2R m)) with (arf2R m) in T by ring. exact T. }
  lra.
Qed.

Lemma near2_bounds p m v : near 2 p m v -> arf2R m - 2 * ball_rad m p <= v <= arf2R m + 2 * ball_rad m p.
Proof.
  pose proof (ball_rad_pos m p). intros [[-> E]|[_ H0]]; [lra|]. unfold Rabs in H0. destruct (Rcase_abs (v - arf2R m)); lra.
Qed.

Lemma num_lt_close rng iters fuel x y v w r : not_product x -> not_product y -> num_ok rng x -> num_ok rng y ->
  num_value rng x v -> num_value rng y w -> v <> 0 -> w <> 0 -> 
  rnum_eqb x y = false -> num_lt rng iters fuel x y = Some r ->
  (r = true -> v <= w + (Rabs v + Rabs w) / 6) /\ (r = false -> w <= v + (Rabs v + Rabs w) / 6).
Proof.
  intros Nx Ny Hx Hy Hv Hw V0 W0 He H. apply num_lt_result in H as [[He' _]|(p & a & b & Hp & Ha & Hb & H)]; [congruence|].
  pose proof (num_near rng x v fuel p a Nx Hx Hv ltac:(lia) Ha) as Na.
  pose proof (num_near rng y w fuel p b Ny Hy Hw ltac:(lia) Hb) as Nb.
  pose proof (near2_size p a v Hp Na V0). pose proof (near2_size p b w Hp Nb W0).
  pose proof (near2_bounds p a v Na). pose proof (near2_bounds p b w Nb).
  destruct (op_lt_refine a b p p) as (A & B & _).
  split; intros ->; [specialize (A H)|specialize (B H)]; lra.
Qed.

(** Conditional soundness. *)
Lemma num_lt_sound_if rng iters fuel x y v w r :
  (forall p b, (2 <= p)%Z -> num_arb rng fuel x p = Some b -> contains b v) ->
  (forall p b, (2 <= p)%Z -> num_arb rng fuel y p = Some b -> contains b w) ->
  rnum_eqb x y = false -> num_lt rng iters fuel x y = Some r -> (r = true <-> v < w).
Proof.
  intros Cx Cy He H. apply num_lt_result in H as [[He' _]|(p & a & b & Hp & Ha & Hb & H)]; [congruence|].
  assert (Hxb : num_arb rng fuel x p = Some (refine_ball a p)).
  { unfold num_arb. rewrite num_refine_stale by (apply stale_inf; lia). rewrite Ha. reflexivity. }
  assert (Hyb : num_arb rng fuel y p = Some (refine_ball b p)).
  { unfold num_arb. rewrite num_refine_stale by (apply stale_inf; lia). rewrite Hb. reflexivity. }
  apply Cx in Hxb; [|exact Hp]. apply Cy in Hyb; [|exact Hp].
  destruct (refine_ball_rad a p) as (ra & Ea & Ra). destruct (refine_ball_rad b p) as (rb & Eb & Rb).
  apply (contains_bounds _ ra) in Hxb; [|exact Ea]. apply (contains_bounds _ rb) in Hyb; [|exact Eb].
  rewrite Ra in Hxb. rewrite Rb in Hyb. simpl in Hxb, Hyb.
  destruct (op_lt_refine a b p p) as (A & B & _).
  destruct r; split; intros G; try reflexivity; try discriminate; [specialize (A H); lra|specialize (B H); lra].
Qed.
