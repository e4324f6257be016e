(** Prefix property of random digits; exact ball operations; comparison with
    rationals; doubles of products. *)
From Coq Require Import ZArith QArith Bool List Reals Lia Lra Psatz Qreals.
From Flocq Require Import Core.
From Verif Require Import Arf Arb SpecArf ArfProofs ArbProofs Real SpecReal RealProofs RealProofs2 RealProofs3 RealProofs4 RealProofs5.
Import ListNotations.
Open Scope R_scope.

(** C54 *)
Lemma random_prefix rng seed fuel fuel' p q a b : nonzero_stream (rng seed) -> (0 <= p <= q)%Z ->
  num_arf rng fuel (RAtom (ARandom seed)) p = Some a -> num_arf rng fuel' (RAtom (ARandom seed)) q = Some b ->
  am a = (am b / 2 ^ (q - p))%Z /\ ae a = (ae b + (q - p))%Z /\
  (2 ^ p <= am a < 2 ^ (p + 1))%Z.
Proof.
  intros Hs Hpq Ha Hb. unfold num_arf in *. fold (clamp p) in Ha. fold (clamp q) in Hb.
  destruct (first_one _ Hs) as (z & H1 & H0). cbn [arf_atom] in *.
  apply (arf_random_det rng seed z) in Ha; [|assumption|assumption].
  apply (arf_random_det rng seed z) in Hb; [|assumption|assumption].
  pose proof (rc_range (rng seed) z (clamp p) H1 H0) as G. rewrite <- Ha in G.
  rewrite clamp_idem, (clamp_nn p) in * by lia. rewrite (clamp_nn q) in * by lia.
  subst a b. unfold random_closed in *. cbn [am ae] in *. rewrite !(clamp_nn p), !(clamp_nn q) in * by lia.
  pose proof (prefix_mono (rng seed) (z + Z.to_nat (p + 1)) (Z.to_nat (q - p))) as M.
  replace (z + Z.to_nat (p + 1) + Z.to_nat (q - p))%nat with (z + Z.to_nat (q + 1))%nat in M by lia.
  rewrite Z2Nat.id in M by lia.
  assert (P : (0 < 2 ^ (q - p))%Z) by (apply pow2_pos; lia).
  repeat split; try lia.
  set (A := prefix (rng seed) (z + Z.to_nat (p + 1))) in *. set (B := prefix (rng seed) (z + Z.to_nat (q + 1))) in *.
  apply Z.div_unique with (r := (B - 2 ^ (q - p) * A)%Z); [left; lia|lia].
Qed.

(** C51: exact operands, exactly representable result. *)
Lemma arb_add_exact mag_up prec x y a b : (forall r, arf2R r = 0 -> arf2R (mag_up r) = 0) -> (0 < prec)%Z ->
  rad x = Some a -> rad y = Some b -> arf2R a = 0 -> arf2R b = 0 -> fits prec (arf2R (mid x) + arf2R (mid y)) ->
  exists r, rad (arb_add mag_up (Some prec) x y) = Some r /\ arf2R r = 0 /\
    arf2R (mid (arb_add mag_up (Some prec) x y)) = arf2R (mid x) + arf2R (mid y).
Proof.
  intros Hm Hp Ex Ey Ha Hb Hf.
  assert (Hround : arf2R (arf_round DOWN prec (arf_add_exact (mid x) (mid y))) = arf2R (mid x) + arf2R (mid y)).
  { rewrite arf_round_spec, arf_add_exact_spec by exact Hp. apply round_generic; [apply rndZ_valid|exact Hf]. }
  unfold arb_add, mk_ball. rewrite Ex, Ey. cbn [rad2 option_map rad mid round_mid].
  eexists. split; [reflexivity|]. split; [|exact Hround]. apply Hm. unfold round_err.
  replace (arf_eqb _ _) with true; [rewrite !arf_add_exact_spec, Ha, Hb, arf_zero_spec; ring|].
  symmetry. apply arf_eqb_spec. rewrite Hround, arf_add_exact_spec. reflexivity.
Qed.

Lemma arb_mul_exact mag_up prec x y a b : (forall r, arf2R r = 0 -> arf2R (mag_up r) = 0) -> (0 < prec)%Z ->
  rad x = Some a -> rad y = Some b -> arf2R a = 0 -> arf2R b = 0 -> fits prec (arf2R (mid x) * arf2R (mid y)) ->
  exists r, rad (arb_mul mag_up (Some prec) x y) = Some r /\ arf2R r = 0 /\
    arf2R (mid (arb_mul mag_up (Some prec) x y)) = arf2R (mid x) * arf2R (mid y).
Proof.
  intros Hm Hp Ex Ey Ha Hb Hf.
  assert (Hround : arf2R (arf_round DOWN prec (arf_mul_exact (mid x) (mid y))) = arf2R (mid x) * arf2R (mid y)).
  { rewrite arf_round_spec, arf_mul_exact_spec by exact Hp. apply round_generic; [apply rndZ_valid|exact Hf]. }
  unfold arb_mul, mk_ball. rewrite Ex, Ey. cbn [rad2 option_map rad mid round_mid].
  eexists. split; [reflexivity|]. split; [|exact Hround]. apply Hm. unfold round_err.
  replace (arf_eqb _ _) with true.
  - rewrite !arf_add_exact_spec, !arf_mul_exact_spec, Ha, Hb, arf_zero_spec. ring.
  - symmetry. apply arf_eqb_spec. rewrite Hround, arf_mul_exact_spec. reflexivity.
Qed.

(** Comparison of rational numbers with rationals. *)
Lemma Qle_bool_R p q : Qle_bool p q = true <-> Q2R p <= Q2R q.
Proof. rewrite Qle_bool_iff. split; [apply Qle_Rle|apply Rle_Qle]. Qed.

Lemma num_lt_q_rational rng mag_up iters fuel p q :
  exists r, num_lt_q rng mag_up iters fuel (RRat p) q = Some r /\ (r = true <-> Q2R p < Q2R q).
Proof.
  eexists. split; [reflexivity|]. rewrite negb_true_iff. pose proof (Qle_bool_R q p) as H.
  destruct (Qle_bool q p); split; intros G; try discriminate; try reflexivity.
  - assert (Q2R q <= Q2R p) by (apply H; reflexivity). lra.
  - apply Rnot_le_lt. intros C. apply H in C. discriminate.
Qed.
Lemma num_gt_q_rational rng mag_up iters fuel p q :
  exists r, num_gt_q rng mag_up iters fuel (RRat p) q = Some r /\ (r = true <-> Q2R p > Q2R q).
Proof.
  eexists. split; [reflexivity|]. rewrite negb_true_iff. pose proof (Qle_bool_R p q) as H. unfold Rgt.
  destruct (Qle_bool p q); split; intros G; try discriminate; try reflexivity.
  - assert (Q2R p <= Q2R q) by (apply H; reflexivity). lra.
  - apply Rnot_le_lt. intros C. apply H in C. discriminate.
Qed.
Lemma num_eq_q_rational p q : num_eq_q (RRat p) q = true <-> Q2R p = Q2R q.
Proof. simpl. rewrite Qeq_bool_iff. split; [apply Qeq_eqR|apply eqR_Qeq]. Qed.
Lemma num_eq_arf_rational p a : num_eq_arf (RRat p) a = true <-> Q2R p = arf2R a.
Proof.
  simpl. rewrite arf_eqb_spec, arf_mul_exact_spec, !arf_of_Z_spec. unfold Q2R.
  assert (P : IZR (Zpos (Qden p)) <> 0) by (apply IZR_neq; lia).
  split; intros H; [rewrite <- H|rewrite <- H]; field; exact P.
Qed.

(** Termination of the comparison with rationals. *)

Section TerminationQ.
  Variables (rng : Z -> nat -> bool) (mag_up : arf -> arf) (x : rnum) (v : R) (q : Q).
  Hypotheses (Hm : mag_up_within mag_up) (Hx : num_ok rng x) (Hv : num_value rng x v) (Hne : v <> Q2R q).

  Lemma opq_lt_refine a p : let n := Qnum q in let d := Zpos (Qden q) in
    (opq_lt mag_up (refine_ball a p) n d = Some true -> arf2R a + ball_rad a p < Q2R q) /\
    (opq_lt mag_up (refine_ball a p) n d = Some false -> Q2R q <= arf2R a - ball_rad a p) /\
    (opq_lt mag_up (refine_ball a p) n d = None ->
       Q2R q <= arf2R a + 2 * ball_rad a p /\ arf2R a - 2 * ball_rad a p < Q2R q).
  Proof.
    intros n d. set (D := IZR d). assert (HD : 0 < D) by (apply IZR_lt; unfold d; lia).
    assert (Hq : Q2R q * D = IZR n) by (unfold Q2R, D, d, n; field; apply IZR_neq; lia).
    destruct (refine_ball_rad a p) as (ra & Ea & Ra). pose proof (ball_rad_pos a p) as Hpos.
    unfold opq_lt, op_lt, arb_lt, arb_ge, arb_le, arb_hi, arb_lo, opt2, arb_times_den, arb_mul, mk_ball.
    rewrite Ea. cbn [rad mid arb_of_Z arb_of_arf rad2 option_map refine_ball round_mid round_err].
    match goal with |- context [mag_up ?e] => set (r := e) end.
    assert (Hr : arf2R r = D * ball_rad a p).
    { unfold r. repeat rewrite ?arf_add_exact_spec, ?arf_mul_exact_spec, ?arf_abs_spec, ?arf_of_Z_spec, ?arf_zero_spec.
      fold D. rewrite Ra, (Rabs_pos_eq D) by lra. ring. }
    destruct (Hm r) as [U1 U2]; [rewrite Hr; nra|]. rewrite Hr in U1, U2.
    destruct (arf_ltb _ _) eqn:E1; [|destruct (arf_leb _ _) eqn:E2].
    - apply arf_ltb_spec in E1. revert E1.
      repeat rewrite ?arf_add_exact_spec, ?arf_sub_exact_spec, ?arf_mul_exact_spec, ?arf_of_Z_spec, ?arf_zero_spec. fold D.
      rewrite <- Hq. intros E1. repeat split; try discriminate. intros _. nra.
    - apply arf_leb_spec in E2. revert E2.
      repeat rewrite ?arf_add_exact_spec, ?arf_sub_exact_spec, ?arf_mul_exact_spec, ?arf_of_Z_spec, ?arf_zero_spec. fold D.
      rewrite <- Hq. intros E2. repeat split; try discriminate. intros _. nra.
    - apply arf_ltb_false in E1. apply arf_leb_false in E2. revert E1 E2.
      repeat rewrite ?arf_add_exact_spec, ?arf_sub_exact_spec, ?arf_mul_exact_spec, ?arf_of_Z_spec, ?arf_zero_spec. fold D.
      rewrite <- Hq. intros E1 E2. repeat split; try discriminate; nra.
  Qed.

  Lemma opq_lt_eventually : exists p0, forall p fuel a, (p0 <= p)%Z -> (2 <= p)%Z ->
    num_arf rng fuel x p = Some a ->
    opq_lt mag_up (refine_ball a p) (Qnum q) (Zpos (Qden q)) = Some (if Rlt_dec v (Q2R q) then true else false).
  Proof.
    destruct (bpow_small (10 * (Rabs v + 1)) (Rabs (v - Q2R q))) as (n0 & Hn0 & Hn).
    { apply Rabs_pos_lt. lra. }
    exists n0. intros p fuel a Hp Hp2 Ha.
    pose proof (near_bounds p a v Hp2 (num_near4 rng x v fuel p a Hx Hv ltac:(lia) Ha)) as Bx.
    specialize (Hn p Hp). pose proof (ball_rad_pos a p). pose proof (Rabs_pos (v - arf2R a)).
    destruct (opq_lt_refine a p) as (A & B & C).
    destruct (opq_lt mag_up _ _ _) as [[]|]; [specialize (A eq_refl)|specialize (B eq_refl)|specialize (C eq_refl)];
      destruct (Rlt_dec v (Q2R q)); try reflexivity; exfalso;
      unfold Rabs in *; destruct (Rcase_abs v);
      destruct (Rcase_abs (v - arf2R a)); destruct (Rcase_abs (v - Q2R q)); lra.
  Qed.

  Lemma num_arb_eq fuel p : (0 <= p)%Z -> num_arb rng fuel x p = option_map (fun m => refine_ball m p) (num_arf rng fuel x p).
  Proof. intros H. unfold num_arb. apply num_refine_stale. apply stale_inf. exact H. Qed.

  Lemma num_cmpq_loop_terminates (op : arb -> Z -> Z -> option bool) : forall n prec, (2 <= prec)%Z ->
    (forall fuel a, num_arf rng fuel x (prec * 2 ^ Z.of_nat n) = Some a ->
       op (refine_ball a (prec * 2 ^ Z.of_nat n)) (Qnum q) (Zpos (Qden q)) <> None) ->
    exists iters0 fuel0 r, forall iters fuel, (iters0 <= iters)%nat -> (fuel0 <= fuel)%nat ->
      num_cmpq_loop rng op iters fuel x q prec = Some r.
  Proof.
    induction n as [|n IH]; intros prec Hp Hdec;
      destruct (num_arf_returns rng x prec Hx) as (f1 & a & Ha).
    - rewrite Z.mul_1_r in Hdec.
      destruct (op (refine_ball a prec) (Qnum q) (Zpos (Qden q))) as [r|] eqn:E.
      + exists 1%nat, f1, r. intros [|iters] fuel Hi Hf; [lia|]. cbn [num_cmpq_loop].
        rewrite num_arb_eq, Ha by lia. cbn [option_map]. rewrite E. reflexivity.
      + exfalso. apply (Hdec f1 a); [apply Ha; lia|exact E].
    - destruct (op (refine_ball a prec) (Qnum q) (Zpos (Qden q))) as [r|] eqn:E.
      + exists 1%nat, f1, r. intros [|iters] fuel Hi Hf; [lia|]. cbn [num_cmpq_loop].
        rewrite num_arb_eq, Ha by lia. cbn [option_map]. rewrite E. reflexivity.
      + destruct (IH (prec * 2)%Z) as (i0 & f0 & r & Hr).
        * lia.
        * intros fuel a'. replace (prec * 2 * 2 ^ Z.of_nat n)%Z with (prec * 2 ^ Z.of_nat (S n))%Z; [apply Hdec|].
          rewrite Nat2Z.inj_succ, Z.pow_succ_r by lia. lia.
        * exists (S i0), (Nat.max f1 f0), r. intros [|iters] fuel Hi Hf; [lia|]. cbn [num_cmpq_loop].
          rewrite num_arb_eq, Ha by lia. cbn [option_map]. rewrite E. apply Hr; lia.
  Qed.

  Lemma num_lt_q_terminates : exists iters0 fuel0 r, forall iters fuel, (iters0 <= iters)%nat -> (fuel0 <= fuel)%nat ->
    num_lt_q rng mag_up iters fuel x q = Some r.
  Proof.
    destruct opq_lt_eventually as [p0 Hp0].
    assert (G : exists iters0 fuel0 r, forall iters fuel, (iters0 <= iters)%nat -> (fuel0 <= fuel)%nat ->
       num_cmpq_loop rng (opq_lt mag_up) iters fuel x q ARB_PRECISION_FAST = Some r).
    { apply (num_cmpq_loop_terminates (opq_lt mag_up) (Z.to_nat p0)); [unfold ARB_PRECISION_FAST; lia|].
      intros fuel a Ha.
      assert (Hpow : (Z.of_nat (Z.to_nat p0) < 2 ^ Z.of_nat (Z.to_nat p0))%Z) by (apply Z.pow_gt_lin_r; lia).
      rewrite (Hp0 _ fuel a) by (assumption || unfold ARB_PRECISION_FAST; lia). discriminate. }
    destruct x; try exact G. exists 0%nat, 0%nat. eexists. reflexivity.
  Qed.

  (** A wrong answer needs a rational extremely close to the number: within 2^-64 relative. *)
  Lemma num_lt_q_close iters fuel r : not_product x -> v <> 0 ->
    num_lt_q rng mag_up iters fuel x q = Some r ->
    (r = true -> v <= Q2R q + Rabs v * bpow radix2 (-64)) /\ (r = false -> Q2R q <= v + Rabs v * bpow radix2 (-64)).
  Proof using Hm Hx Hv.
    clear Hne. intros Np V0 H.
    assert (Hb0 : 0 <= Rabs v * bpow radix2 (-64)) by (apply Rmult_le_pos; [apply Rabs_pos|left; apply bpow2_pos]).
    assert (G : forall iters prec, (64 <= prec)%Z -> num_cmpq_loop rng (opq_lt mag_up) iters fuel x q prec = Some r ->
      (r = true -> v <= Q2R q + Rabs v * bpow radix2 (-64)) /\ (r = false -> Q2R q <= v + Rabs v * bpow radix2 (-64))).
    { clear H iters. induction iters as [|iters IH]; intros prec Hp; cbn [num_cmpq_loop]; [discriminate|].
      rewrite num_arb_eq by lia. destruct (num_arf rng fuel x prec) as [a|] eqn:Ea; cbn [option_map]; [|discriminate].
      destruct (opq_lt mag_up (refine_ball a prec) (Qnum q) (Zpos (Qden q))) as [r'|] eqn:E; [|apply IH; lia].
      intros [= ->]. destruct (opq_lt_refine a prec) as (A & B & _).
      pose proof (num_near rng x v fuel prec a Np Hx Hv ltac:(lia) Ea) as Na.
      assert (Hn4 : near 4 prec a v) by (apply near_weaken with 2; [lra|exact Na]).
      pose proof (near2_bounds prec a v Na).
      assert (Hsz : ball_rad a prec <= Rabs v * bpow radix2 (-64)).
      { destruct (near4_size prec a v ltac:(lia) Hn4) as (S1 & _).
        destruct Na as [[C _]|[Hm0 _]]; [contradiction|]. pose proof (ball_rad_mid a prec Hm0) as Hr.
        eapply Rle_trans; [exact Hr|]. apply Rle_trans with (2 * Rabs v * bpow radix2 (-65)).
        - apply Rmult_le_compat; [apply Rabs_pos|left; apply bpow2_pos|exact S1|apply bpow_le; lia].
        - right. replace (-64)%Z with (1 + -65)%Z by lia. rewrite bpow_plus. change (bpow radix2 1) with 2. ring. }
      split; intros ->; [specialize (A E)|specialize (B E)]; lra. }
    destruct x as [p0|a0|ms0]; [|apply (G iters 64%Z); [lia|exact H]|destruct Np].
    destruct (num_lt_q_rational rng mag_up iters fuel p0 q) as (r' & E & Hr').
    rewrite H in E. injection E as <-. simpl in Hv. subst v. split; intros ->.
    - assert (Q2R p0 < Q2R q) by (apply Hr'; reflexivity). lra.
    - destruct (Rlt_dec (Q2R p0) (Q2R q)) as [C|C]; [apply Hr' in C; discriminate|]. lra.
  Qed.
End TerminationQ.

(** Doubles: an error bound for every number, products included. *)
Lemma double_error rng fuel x v d : num_ok rng x -> num_value rng x v ->
  num_double rng fuel x = Some d ->
  exists a, Rabs (v - a) <= Rabs a * bpow radix2 (-53) /\ arf2R d = round radix2 (FLT_exp (-1074) 53) ZnearestE a.
Proof.
  intros Hok Hv H. unfold num_double in H.
  destruct (num_arf rng fuel x ARF_DOUBLE_PRECISION) as [a|] eqn:Ea; [|discriminate].
  injection H as <-. exists (arf2R a). rewrite arf_to_double_spec. split; [|reflexivity].
  pose proof (num_near4 rng x v fuel ARF_DOUBLE_PRECISION a Hok Hv ltac:(unfold ARF_DOUBLE_PRECISION; lia) Ea) as [[-> ->]|[Hm Hn]].
  - rewrite Rminus_0_r, Rabs_R0. lra.
  - pose proof (ball_rad_mid a ARF_DOUBLE_PRECISION Hm) as Hr. eapply Rle_trans; [exact Hn|].
    unfold ARF_DOUBLE_PRECISION in *. replace (-53)%Z with (2 + (-1 - 54))%Z by lia. rewrite bpow_plus. change (bpow radix2 2) with 4. lra.
Qed.

(** Forms used in the property files. *)
Lemma num_value_unique_exists rng x : exists! v, num_value rng x v.
Proof.
  destruct (num_value_exists rng x) as [v Hv]. exists v. split; [exact Hv|]. intros w Hw. exact (num_value_unique rng x v w Hv Hw).
Qed.
Lemma num_rational_accurate rng fuel q prec a : (1 <= prec)%Z -> ~ (q == 0)%Q ->
  num_arf rng fuel (RRat q) prec = Some a -> accurate prec a (Q2R q).
Proof.
  intros Hp Hq H. unfold num_arf in H. fold (clamp prec) in H. rewrite clamp_pos in H by exact Hp.
  injection H as <-. apply rational_accurate; assumption.
Qed.
Lemma num_atom_accurate rng fuel a v prec b : atom_ok rng a -> num_value rng (RAtom a) v -> (1 <= prec)%Z ->
  num_arf rng fuel (RAtom a) prec = Some b -> accurate prec b v.
Proof.
  intros Hok Hv Hp H. unfold num_arf in H. fold (clamp prec) in H. rewrite clamp_pos in H by exact Hp.
  pose proof (atom_accurate rng a v fuel prec b Hok Hv H) as [A _]. rewrite clamp_pos in A by exact Hp. exact A.
Qed.
Lemma num_prod_accurate rng fuel ms v prec a : num_ok rng (RProd ms) -> num_value rng (RProd ms) v ->
  (1 <= prec)%Z -> num_arf rng fuel (RProd ms) prec = Some a -> accurate (prec - 1) a v.
Proof.
  intros Hok Hv Hp H. unfold num_arf in H. fold (clamp prec) in H. rewrite clamp_pos in H by lia.
  exact (proj1 (prod_accurate rng ms v fuel prec a Hok Hv Hp H)).
Qed.
Lemma num_arb_accuracy rng fuel x prec b : (0 <= prec)%Z -> num_arb rng fuel x prec = Some b ->
  arf2R (mid b) <> 0 -> rel_accuracy_bits b = prec.
Proof.
  intros Hp H Hm. rewrite num_arb_eq in H by exact Hp. destruct (num_arf rng fuel x prec) as [a|]; [|discriminate].
  injection H as <-. apply refine_ball_accuracy. exact Hm.
Qed.
Lemma num_refine_keeps rng fuel x b prec : (prec <= rel_accuracy_bits b)%Z -> num_refine rng fuel x b prec = Some b.
Proof. intros H. unfold num_refine. destruct (Z.leb_spec prec (rel_accuracy_bits b)); [reflexivity|lia]. Qed.
Lemma near_ball k p m v r : near k p m v -> 0 <= k -> rad (refine_ball m p) = Some r -> Rabs (v - arf2R m) <= k * arf2R r.
Proof.
  intros Hn Hk Hr. destruct (refine_ball_rad m p) as (r' & E & R'). rewrite E in Hr. injection Hr as <-. rewrite R'.
  destruct Hn as [[-> ->]|[_ H]]; [|exact H]. rewrite Rminus_0_r, Rabs_R0. pose proof (ball_rad_pos m p). nra.
Qed.
Lemma num_arb_twice rng fuel x v prec b r : not_product x -> num_ok rng x -> num_value rng x v ->
  (1 <= prec)%Z -> num_arb rng fuel x prec = Some b -> rad b = Some r -> Rabs (v - arf2R (mid b)) <= 2 * arf2R r.
Proof.
  intros Np Hok Hv Hp H Hr. rewrite num_arb_eq in H by lia. destruct (num_arf rng fuel x prec) as [a|] eqn:Ea; [|discriminate].
  injection H as <-. apply (near_ball 2 prec a v r); [apply (num_near rng x v fuel); assumption|lra|exact Hr].
Qed.
Lemma num_arb_four rng fuel x v prec b r : num_ok rng x -> num_value rng x v ->
  (1 <= prec)%Z -> num_arb rng fuel x prec = Some b -> rad b = Some r -> Rabs (v - arf2R (mid b)) <= 4 * arf2R r.
Proof.
  intros Hok Hv Hp H Hr. rewrite num_arb_eq in H by lia. destruct (num_arf rng fuel x prec) as [a|] eqn:Ea; [|discriminate].
  injection H as <-. apply (near_ball 4 prec a v r); [apply (num_near4 rng x v fuel); assumption|lra|exact Hr].
Qed.
Lemma random_range rng seed v : nonzero_stream (rng seed) -> num_value rng (RAtom (ARandom seed)) v -> 0 < v <= 1.
Proof. intros Hs Hv. split; [apply (stream_value_pos _ _ Hs Hv)|apply (stream_value_range _ _ Hv)]. Qed.
