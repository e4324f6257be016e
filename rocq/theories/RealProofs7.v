(** Comparison with rationals and floats: >, and how close a float must be for a wrong answer. *)
From Coq Require Import ZArith QArith Bool List Reals Lia Lra Psatz Qreals.
From Flocq Require Import Core.
From Verif Require Import Arf Arb SpecArf ArfProofs ArbProofs Real SpecReal RealProofs RealProofs2 RealProofs3 RealProofs4 RealProofs5 RealProofs6.
Import ListNotations.
Open Scope R_scope.

Section TerminationGtQ.
  Variables (rng : Z -> nat -> bool) (mag_up : arf -> arf) (x : rnum) (v : R) (q : Q).
  Hypotheses (Hm : mag_up_within mag_up) (Hx : num_ok rng x) (Hv : num_value rng x v) (Hne : v <> Q2R q).

  Lemma opq_gt_refine a p : let n := Qnum q in let d := Zpos (Qden q) in
    (opq_gt mag_up (refine_ball a p) n d = Some true -> Q2R q < arf2R a - ball_rad a p) /\
    (opq_gt mag_up (refine_ball a p) n d = Some false -> arf2R a + ball_rad a p <= Q2R q) /\
    (opq_gt mag_up (refine_ball a p) n d = None ->
       Q2R q < arf2R a + 2 * ball_rad a p /\ arf2R a - 2 * ball_rad a p <= Q2R q).
  Proof.
    intros n d. set (D := IZR d). assert (HD : 0 < D) by (apply IZR_lt; unfold d; lia).
    assert (Hq : Q2R q * D = IZR n) by (unfold Q2R, D, d, n; field; apply IZR_neq; lia).
    destruct (refine_ball_rad a p) as (ra & Ea & Ra). pose proof (ball_rad_pos a p) as Hpos.
    unfold opq_gt, op_gt, arb_gt, arb_lt, arb_le, arb_hi, arb_lo, opt2, arb_times_den, arb_mul, mk_ball.
    rewrite Ea. cbn [rad mid arb_of_Z arb_of_arf rad2 option_map refine_ball round_mid round_err].
    match goal with |- context [mag_up ?e] => set (r := e) end.
    assert (Hr : arf2R r = D * ball_rad a p).
    { unfold r. repeat rewrite ?arf_add_exact_spec, ?arf_mul_exact_spec, ?arf_abs_spec, ?arf_of_Z_spec, ?arf_zero_spec.
      fold D. rewrite Ra, (Rabs_pos_eq D) by lra. ring. }
    destruct (Hm r) as [U1 U2]; [rewrite Hr; nra|]. rewrite Hr in U1, U2.
    destruct (arf_ltb _ _) eqn:E1; [|destruct (arf_leb _ _) eqn:E2].
    - apply arf_ltb_spec in E1. revert E1.
      repeat rewrite ?arf_add_exact_spec, ?arf_sub_exact_spec, ?arf_mul_exact_spec, ?arf_of_Z_spec, ?arf_zero_spec. fold D.
      rewrite <- Hq. intros E1. repeat split; try discriminate. intros _. nra.
    - apply arf_leb_spec in E2. revert E2.
      repeat rewrite ?arf_add_exact_spec, ?arf_sub_exact_spec, ?arf_mul_exact_spec, ?arf_of_Z_spec, ?arf_zero_spec. fold D.
      rewrite <- Hq. intros E2. repeat split; try discriminate. intros _. nra.
    - apply arf_ltb_false in E1. apply arf_leb_false in E2. revert E1 E2.
      repeat rewrite ?arf_add_exact_spec, ?arf_sub_exact_spec, ?arf_mul_exact_spec, ?arf_of_Z_spec, ?arf_zero_spec. fold D.
      rewrite <- Hq. intros E1 E2. repeat split; try discriminate; nra.
  Qed.

  Lemma opq_gt_eventually : exists p0, forall p fuel a, (p0 <= p)%Z -> (2 <= p)%Z ->
    num_arf rng fuel x p = Some a ->
    opq_gt mag_up (refine_ball a p) (Qnum q) (Zpos (Qden q)) = Some (if Rlt_dec (Q2R q) v then true else false).
  Proof.
    destruct (bpow_small (10 * (Rabs v + 1)) (Rabs (v - Q2R q))) as (n0 & Hn0 & Hn).
    { apply Rabs_pos_lt. lra. }
    exists n0. intros p fuel a Hp Hp2 Ha.
    pose proof (near_bounds p a v Hp2 (num_near4 rng x v fuel p a Hx Hv ltac:(lia) Ha)) as Bx.
    specialize (Hn p Hp). pose proof (ball_rad_pos a p). pose proof (Rabs_pos (v - arf2R a)).
    destruct (opq_gt_refine a p) as (A & B & C).
    destruct (opq_gt mag_up _ _ _) as [[]|]; [specialize (A eq_refl)|specialize (B eq_refl)|specialize (C eq_refl)];
      destruct (Rlt_dec (Q2R q) v); try reflexivity; exfalso;
      unfold Rabs in *; destruct (Rcase_abs v);
      destruct (Rcase_abs (v - arf2R a)); destruct (Rcase_abs (v - Q2R q)); lra.
  Qed.

  Lemma num_gt_q_terminates : exists iters0 fuel0 r, forall iters fuel, (iters0 <= iters)%nat -> (fuel0 <= fuel)%nat ->
    num_gt_q rng mag_up iters fuel x q = Some r.
  Proof.
    destruct opq_gt_eventually as [p0 Hp0].
    assert (G : exists iters0 fuel0 r, forall iters fuel, (iters0 <= iters)%nat -> (fuel0 <= fuel)%nat ->
       num_cmpq_loop rng (opq_gt mag_up) iters fuel x q ARB_PRECISION_FAST = Some r).
    { apply (num_cmpq_loop_terminates rng x q Hx (opq_gt mag_up) (Z.to_nat p0)); [unfold ARB_PRECISION_FAST; lia|].
      intros fuel a Ha.
      assert (Hpow : (Z.of_nat (Z.to_nat p0) < 2 ^ Z.of_nat (Z.to_nat p0))%Z) by (apply Z.pow_gt_lin_r; lia).
      rewrite (Hp0 _ fuel a) by (assumption || unfold ARB_PRECISION_FAST; lia). discriminate. }
    destruct x; try exact G. exists 0%nat, 0%nat. eexists. reflexivity.
  Qed.

  (** A wrong answer needs a rational extremely close to the number: within 2^-64 relative. *)
  Lemma num_gt_q_close iters fuel r : not_product x -> v <> 0 ->
    num_gt_q rng mag_up iters fuel x q = Some r ->
    (r = true -> Q2R q <= v + Rabs v * bpow radix2 (-64)) /\ (r = false -> v <= Q2R q + Rabs v * bpow radix2 (-64)).
  Proof using Hm Hx Hv.
    clear Hne. intros Np V0 H.
    assert (Hb0 : 0 <= Rabs v * bpow radix2 (-64)) by (apply Rmult_le_pos; [apply Rabs_pos|left; apply bpow2_pos]).
    assert (G : forall iters prec, (64 <= prec)%Z -> num_cmpq_loop rng (opq_gt mag_up) iters fuel x q prec = Some r ->
      (r = true -> Q2R q <= v + Rabs v * bpow radix2 (-64)) /\ (r = false -> v <= Q2R q + Rabs v * bpow radix2 (-64))).
    { clear H iters. induction iters as [|iters IH]; intros prec Hp; cbn [num_cmpq_loop]; [discriminate|].
      rewrite num_arb_eq by lia. destruct (num_arf rng fuel x prec) as [a|] eqn:Ea; cbn [option_map]; [|discriminate].
      destruct (opq_gt mag_up (refine_ball a prec) (Qnum q) (Zpos (Qden q))) as [r'|] eqn:E; [|apply IH; lia].
      intros [= ->]. destruct (opq_gt_refine a prec) as (A & B & _).
      pose proof (num_near rng x v fuel prec a Np Hx Hv ltac:(lia) Ea) as Na.
      assert (Hn4 : near 4 prec a v) by (apply near_weaken with 2; [lra|exact Na]).
      pose proof (near2_bounds prec a v Na).
      assert (Hsz : ball_rad a prec <= Rabs v * bpow radix2 (-64)).
      { destruct (near4_size prec a v ltac:(lia) Hn4) as (S1 & _).
        destruct Na as [[C _]|[Hm0 _]]; [contradiction|]. pose proof (ball_rad_mid a prec Hm0) as Hr.
        eapply Rle_trans; [exact Hr|]. apply Rle_trans with (2 * Rabs v * bpow radix2 (-65)).
        - apply Rmult_le_compat; [apply Rabs_pos|left; apply bpow2_pos|exact S1|apply bpow_le; lia].
        - right. replace (-64)%Z with (1 + -65)%Z by lia. rewrite bpow_plus. change (bpow radix2 1) with 2. ring. }
      split; intros ->; [specialize (A E)|specialize (B E)]; lra. }
    destruct x as [p0|a0|ms0]; [|apply (G iters 64%Z); [lia|exact H]|destruct Np].
    destruct (num_gt_q_rational rng mag_up iters fuel p0 q) as (r' & E & Hr').
    rewrite H in E. injection E as <-. simpl in Hv. subst v. split; intros ->.
    - assert (Q2R p0 > Q2R q) by (apply Hr'; reflexivity). lra.
    - destruct (Rgt_dec (Q2R p0) (Q2R q)) as [C|C]; [apply Hr' in C; discriminate|]. lra.
  Qed.
End TerminationGtQ.

Lemma num_gt_arf_terminates rng x v w : num_ok rng x -> num_value rng x v -> v <> arf2R w ->
  exists iters0 fuel0 r, forall iters fuel, (iters0 <= iters)%nat -> (fuel0 <= fuel)%nat -> num_gt_arf rng iters fuel x w = Some r.
Proof.
  intros Hx Hv N. destruct (num_lt_arf_terminates rng x v w Hx Hv N) as (i0 & f0 & r & H).
  exists i0, f0, (if num_eq_arf x w then false else negb r). intros iters fuel Hi Hf. unfold num_gt_arf. rewrite (H iters fuel Hi Hf).
  destruct (num_eq_arf x w); reflexivity.
Qed.

Lemma num_eq_arf_right rng x v a : num_value rng x v -> num_eq_arf x a = true -> v = arf2R a.
Proof. intros Hv H. destruct x as [p|b|ms]; try discriminate. apply num_eq_arf_rational in H. simpl in Hv. rewrite Hv. exact H. Qed.

Lemma num_lt_arf_close rng iters fuel x v w r : not_product x -> num_ok rng x -> num_value rng x v -> v <> 0 ->
  num_lt_arf rng iters fuel x w = Some r ->
  (r = true -> v <= arf2R w + Rabs v / 6) /\ (r = false -> arf2R w <= v + Rabs v / 6).
Proof.
  intros Np Hx Hv V0 H. pose proof (Rabs_pos v) as Pv. unfold num_lt_arf in H. destruct (num_eq_arf x w) eqn:E.
  - apply (num_eq_arf_right rng x v) in E; [|exact Hv]. split; intros _; lra.
  - apply num_lt_arf_loop_result in H as (p & a & Hp & Ha & H); [|lia|apply stale_inf; lia].
    pose proof (num_near rng x v fuel p a Np Hx Hv ltac:(lia) Ha) as Na.
    pose proof (near2_size p a v ltac:(lia) Na V0). pose proof (near2_bounds p a v Na).
    destruct (op_lt_refine_arf a w p) as (A & B & _).
    split; intros ->; [specialize (A H)|specialize (B H)]; lra.
Qed.
Lemma num_gt_arf_close rng iters fuel x v w r : not_product x -> num_ok rng x -> num_value rng x v -> v <> 0 ->
  num_gt_arf rng iters fuel x w = Some r ->
  (r = true -> arf2R w <= v + Rabs v / 6) /\ (r = false -> v <= arf2R w + Rabs v / 6).
Proof.
  intros Np Hx Hv V0 H. pose proof (Rabs_pos v) as Pv. unfold num_gt_arf in H. destruct (num_eq_arf x w) eqn:E.
  - apply (num_eq_arf_right rng x v) in E; [|exact Hv]. split; intros _; lra.
  - destruct (num_lt_arf rng iters fuel x w) as [l|] eqn:El; [|discriminate]. injection H as <-.
    destruct (num_lt_arf_close rng iters fuel x v w l Np Hx Hv V0 El) as [A B]. destruct l; split; try discriminate; intros _; auto.
Qed.
