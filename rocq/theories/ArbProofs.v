(** Proofs about [Arb.v]. *)
From Coq Require Import ZArith Bool List Reals Lia Lra Psatz.
From Flocq Require Import Core.
From Verif Require Import Arf Arb SpecArf ArfProofs.
Open Scope R_scope.

(** A real number is in the ball. *)
Lemma arf2R_nonneg a : 0 <= arf2R a <-> (0 <= am a)%Z.
Proof.
  unfold arf2R. pose proof (bpow2_pos (ae a)). split; intros H0.
  - apply le_IZR. nra.
  - apply IZR_le in H0. nra.
Qed.

Lemma arf2R_pos a : 0 < arf2R a <-> (0 < am a)%Z.
Proof.
  unfold arf2R. pose proof (bpow2_pos (ae a)). split; intros H0.
  - apply lt_IZR. nra.
  - apply IZR_lt in H0. nra.
Qed.

Lemma contains_bounds x r v : rad x = Some r ->
  contains x v <-> arf2R (mid x) - arf2R r <= v <= arf2R (mid x) + arf2R r.
Proof.
  intros Hr. unfold contains. rewrite Hr. split.
  - intros H. apply Rabs_le_inv in H. lra.
  - intros H. apply Rabs_le. lra.
Qed.

Lemma arb_wf_rad x r : arb_wf x -> rad x = Some r -> 0 <= arf2R r.
Proof. unfold arb_wf. intros H E. rewrite E in H. apply arf2R_nonneg. exact H. Qed.

Lemma contains_mid x : arb_wf x -> contains x (arf2R (mid x)).
Proof.
  intros H. unfold contains. destruct (rad x) eqn:E; [|exact I].
  rewrite Rminus_eq_0, Rabs_R0. exact (arb_wf_rad x _ H E).
Qed.

(** Comparison of endpoints characterises comparison of all points. *)
Lemma arb_lt_spec x y : arb_wf x -> arb_wf y ->
  arb_lt x y = true <-> (forall p q, contains x p -> contains y q -> p < q).
Proof.
  intros Wx Wy. unfold arb_lt, arb_hi, arb_lo. destruct (rad x) as [rx|] eqn:Ex; destruct (rad y) as [ry|] eqn:Ey; simpl.
  - rewrite arf_ltb_spec, arf_add_exact_spec, arf_sub_exact_spec.
    pose proof (arb_wf_rad _ _ Wx Ex). pose proof (arb_wf_rad _ _ Wy Ey). split.
    + intros H1 p q Hp Hq. apply (contains_bounds x rx) in Hp; [|exact Ex].
      apply (contains_bounds y ry) in Hq; [|exact Ey]. lra.
    + intros H1. apply H1; [apply (contains_bounds x rx)|apply (contains_bounds y ry)]; auto; lra.
  - split; [discriminate|]. intros H. exfalso.
    specialize (H (arf2R (mid x)) (arf2R (mid x) - 1) (contains_mid x Wx)).
    unfold contains at 1 in H. rewrite Ey in H. specialize (H I). lra.
  - split; [discriminate|]. intros H. exfalso.
    specialize (H (arf2R (mid y) + 1) (arf2R (mid y))).
    unfold contains at 1 in H. rewrite Ex in H. specialize (H I (contains_mid y Wy)). lra.
  - split; [discriminate|]. intros H. exfalso.
    specialize (H 0 0). unfold contains in H. rewrite Ex, Ey in H. specialize (H I I). lra.
Qed.

Lemma arb_le_spec x y : arb_wf x -> arb_wf y ->
  arb_le x y = true <-> (forall p q, contains x p -> contains y q -> p <= q).
Proof.
  intros Wx Wy. unfold arb_le, arb_hi, arb_lo. destruct (rad x) as [rx|] eqn:Ex; destruct (rad y) as [ry|] eqn:Ey; simpl.
  - rewrite arf_leb_spec, arf_add_exact_spec, arf_sub_exact_spec.
    pose proof (arb_wf_rad _ _ Wx Ex). pose proof (arb_wf_rad _ _ Wy Ey). split.
    + intros H1 p q Hp Hq. apply (contains_bounds x rx) in Hp; [|exact Ex].
      apply (contains_bounds y ry) in Hq; [|exact Ey]. lra.
    + intros H1. apply H1; [apply (contains_bounds x rx)|apply (contains_bounds y ry)]; auto; lra.
  - split; [discriminate|]. intros H. exfalso.
    specialize (H (arf2R (mid x)) (arf2R (mid x) - 1) (contains_mid x Wx)).
    unfold contains at 1 in H. rewrite Ey in H. specialize (H I). lra.
  - split; [discriminate|]. intros H. exfalso.
    specialize (H (arf2R (mid y) + 1) (arf2R (mid y))).
    unfold contains at 1 in H. rewrite Ex in H. specialize (H I (contains_mid y Wy)). lra.
  - split; [discriminate|]. intros H. exfalso.
    specialize (H 1 0). unfold contains in H. rewrite Ex, Ey in H. specialize (H I I). lra.
Qed.

Lemma arb_eq_spec x y : arb_wf x -> arb_wf y ->
  arb_eq x y = true <-> (forall p q, contains x p -> contains y q -> p = q).
Proof.
  intros Wx Wy. unfold arb_eq, arb_is_exact. rewrite !andb_true_iff.
  destruct (rad x) as [rx|] eqn:Ex; destruct (rad y) as [ry|] eqn:Ey; simpl.
  - rewrite !Z.eqb_eq, arf_eqb_spec.
    pose proof (arb_wf_rad _ _ Wx Ex) as Px. pose proof (arb_wf_rad _ _ Wy Ey) as Py. split.
    + intros [[H1 H2] H3] p q Hp Hq. apply (contains_bounds x rx) in Hp; [|exact Ex].
      apply (contains_bounds y ry) in Hq; [|exact Ey].
      apply arf2R_eq0 in H1. apply arf2R_eq0 in H2. lra.
    + intros H.
      assert (Hx : arf2R rx = 0).
      { assert (Cx : contains x (arf2R (mid x) + arf2R rx)) by (apply (contains_bounds x rx); auto; lra).
        pose proof (H _ _ Cx (contains_mid y Wy)). pose proof (H _ _ (contains_mid x Wx) (contains_mid y Wy)). lra. }
      assert (Hy : arf2R ry = 0).
      { assert (Cy : contains y (arf2R (mid y) + arf2R ry)) by (apply (contains_bounds y ry); auto; lra).
        pose proof (H _ _ (contains_mid x Wx) Cy). pose proof (H _ _ (contains_mid x Wx) (contains_mid y Wy)). lra. }
      apply arf2R_eq0 in Hx, Hy. split; [split; assumption|].
      apply H; apply contains_mid; assumption.
  - split; [intros [[_ C] _]; discriminate|]. intros H. exfalso.
    pose proof (H (arf2R (mid x)) 0 (contains_mid x Wx)) as H0.
    pose proof (H (arf2R (mid x)) 1 (contains_mid x Wx)) as H1.
    unfold contains in H0, H1. rewrite Ey in *. specialize (H0 I). specialize (H1 I). lra.
  - split; [intros [[C _] _]; discriminate|]. intros H. exfalso.
    pose proof (fun h => H 0 (arf2R (mid y)) h (contains_mid y Wy)) as H0.
    pose proof (fun h => H 1 (arf2R (mid y)) h (contains_mid y Wy)) as H1.
    unfold contains in H0, H1. rewrite Ex in *. specialize (H0 I). specialize (H1 I). lra.
  - split; [intros [[C _] _]; discriminate|]. intros H. exfalso.
    pose proof (H 0 1) as H0. unfold contains in H0. rewrite Ex, Ey in H0. specialize (H0 I I). lra.
Qed.

Lemma arb_ne_spec x y : arb_wf x -> arb_wf y ->
  arb_ne x y = true <-> (forall p q, contains x p -> contains y q -> p <> q).
Proof.
  intros Wx Wy. unfold arb_ne. rewrite orb_true_iff, !arb_lt_spec by assumption. split.
  - intros [H|H] p q Hp Hq; [pose proof (H p q Hp Hq)|pose proof (H q p Hq Hp)]; lra.
  - intros H.
    destruct (rad x) as [rx|] eqn:Ex.
    2:{ exfalso. apply (H (arf2R (mid y)) (arf2R (mid y))); [|apply contains_mid; assumption|reflexivity].
        unfold contains. rewrite Ex. exact I. }
    destruct (rad y) as [ry|] eqn:Ey.
    2:{ exfalso. apply (H (arf2R (mid x)) (arf2R (mid x))); [apply contains_mid; assumption| |reflexivity].
        unfold contains. rewrite Ey. exact I. }
    pose proof (arb_wf_rad _ _ Wx Ex) as Px. pose proof (arb_wf_rad _ _ Wy Ey) as Py.
    destruct (Rlt_le_dec (arf2R (mid x) + arf2R rx) (arf2R (mid y) - arf2R ry)) as [L|L].
    + left. intros p q Hp Hq. apply (contains_bounds x rx) in Hp; [|exact Ex].
      apply (contains_bounds y ry) in Hq; [|exact Ey]. lra.
    + destruct (Rlt_le_dec (arf2R (mid y) + arf2R ry) (arf2R (mid x) - arf2R rx)) as [L'|L'].
      * right. intros q p Hq Hp. apply (contains_bounds x rx) in Hp; [|exact Ex].
        apply (contains_bounds y ry) in Hq; [|exact Ey]. lra.
      * exfalso. set (p := Rmax (arf2R (mid x) - arf2R rx) (arf2R (mid y) - arf2R ry)).
        apply (H p p); [apply (contains_bounds x rx)|apply (contains_bounds y ry)|reflexivity]; auto;
        unfold p, Rmax; destruct (Rle_dec _ _); lra.
Qed.

(** The tri-state specification: the answer of a comparison [R] on balls. *)
Lemma contains_ex x : arb_wf x -> exists p, contains x p.
Proof. intros H. exists (arf2R (mid x)). apply contains_mid; exact H. Qed.

Lemma tri_negb R x y o : (forall p q, R p q \/ ~ R p q) -> tri R x y o -> tri (fun p q => ~ R p q) x y (option_map negb o).
Proof.
  intros D [H1 H2]. split.
  - rewrite <- H2. destruct o as [[|]|]; simpl; split; intros; congruence.
  - assert (E : option_map negb o = Some false <-> o = Some true) by (destruct o as [[|]|]; simpl; split; intros; congruence).
    rewrite E, H1. split; intros H p q Hp Hq.
    + intros C. exact (C (H p q Hp Hq)).
    + destruct (D p q) as [d|d]; [exact d|]. exfalso; exact (H p q Hp Hq d).
Qed.

Lemma tri_ext (R1 R2 : R -> R -> Prop) x y o : (forall p q, R1 p q <-> R2 p q) -> tri R1 x y o -> tri R2 x y o.
Proof.
  intros E [H1 H2]. split.
  - rewrite H1. split; intros H p q Hp Hq; apply E; apply H; assumption.
  - rewrite H2. split; intros H p q Hp Hq C; apply (H p q Hp Hq); apply E; exact C.
Qed.

Lemma op_lt_spec x y : arb_wf x -> arb_wf y -> tri Rlt x y (op_lt x y).
Proof.
  intros Wx Wy. unfold op_lt, arb_ge.
  pose proof (arb_lt_spec x y Wx Wy) as L. pose proof (arb_le_spec y x Wy Wx) as G.
  destruct (contains_ex x Wx) as [p0 P0]. destruct (contains_ex y Wy) as [q0 Q0].
  destruct (arb_lt x y).
  - split; split; intros H; try reflexivity; try discriminate.
    + apply L; reflexivity.
    + exfalso. apply (H p0 q0 P0 Q0). apply L; auto.
  - destruct (arb_le y x).
    + split; split; intros H; try reflexivity; try discriminate.
      * apply L in H. discriminate.
      * intros p q Hp Hq. pose proof (proj1 G eq_refl q p Hq Hp). lra.
    + split; split; intros H; try discriminate.
      * apply L in H. discriminate.
      * exfalso. assert (false = true); [|discriminate]. apply G.
        intros q p Hq Hp. pose proof (H p q Hp Hq). lra.
Qed.

Lemma op_gt_spec x y : arb_wf x -> arb_wf y -> tri Rgt x y (op_gt x y).
Proof.
  intros Wx Wy. unfold op_gt, arb_gt.
  pose proof (arb_lt_spec y x Wy Wx) as L. pose proof (arb_le_spec x y Wx Wy) as G.
  destruct (contains_ex x Wx) as [p0 P0]. destruct (contains_ex y Wy) as [q0 Q0].
  destruct (arb_lt y x).
  - split; split; intros H; try reflexivity; try discriminate.
    + intros p q Hp Hq. apply (proj1 L eq_refl q p); assumption.
    + exfalso. apply (H p0 q0 P0 Q0). apply (proj1 L eq_refl); assumption.
  - destruct (arb_le x y).
    + split; split; intros H; try reflexivity; try discriminate.
      * assert (false = true); [|discriminate]. apply L. intros q p Hq Hp. apply (H p q Hp Hq).
      * intros p q Hp Hq. pose proof (proj1 G eq_refl p q Hp Hq). lra.
    + split; split; intros H; try discriminate.
      * assert (false = true); [|discriminate]. apply L. intros q p Hq Hp. apply (H p q Hp Hq).
      * exfalso. assert (false = true); [|discriminate]. apply G.
        intros p q Hp Hq. pose proof (H p q Hp Hq). lra.
Qed.

Lemma op_le_spec x y : arb_wf x -> arb_wf y -> tri Rle x y (op_le x y).
Proof.
  intros Wx Wy. unfold op_le. eapply tri_ext; [|apply (tri_negb Rgt); [|apply op_gt_spec; assumption]].
  - intros; simpl; lra.
  - intros; lra.
Qed.

Lemma op_ge_spec x y : arb_wf x -> arb_wf y -> tri Rge x y (op_ge x y).
Proof.
  intros Wx Wy. unfold op_ge. eapply tri_ext; [|apply (tri_negb Rlt); [|apply op_lt_spec; assumption]].
  - intros; simpl; lra.
  - intros; lra.
Qed.

Lemma op_eq_spec x y : arb_wf x -> arb_wf y -> tri (@eq R) x y (op_eq x y).
Proof.
  intros Wx Wy. unfold op_eq.
  pose proof (arb_eq_spec x y Wx Wy) as L. pose proof (arb_ne_spec x y Wx Wy) as G.
  destruct (contains_ex x Wx) as [p0 P0]. destruct (contains_ex y Wy) as [q0 Q0].
  destruct (arb_eq x y).
  - split; split; intros H; try reflexivity; try discriminate.
    + apply L; reflexivity.
    + exfalso. apply (H p0 q0 P0 Q0). apply L; auto.
  - destruct (arb_ne x y).
    + split; split; intros H; try reflexivity; try discriminate.
      * apply L in H. discriminate.
      * apply G. reflexivity.
    + split; split; intros H; try discriminate.
      * apply L in H. discriminate.
      * apply G in H. discriminate.
Qed.

Lemma op_ne_spec x y : arb_wf x -> arb_wf y -> tri (fun p q => p <> q) x y (op_ne x y).
Proof.
  intros Wx Wy. unfold op_ne. apply (tri_negb eq); [|apply op_eq_spec; assumption].
  intros p q. destruct (Req_dec p q); tauto.
Qed.

(** Accuracy of balls. *)
Lemma arf_expo_nonzero_bound a : am a <> 0%Z ->
  Rabs (arf2R a) < bpow radix2 (arf_expo a).
Proof. intros H. apply arf_expo_spec. exact H. Qed.

(** Interval conversion. *)
Lemma round_floor_le p x : (0 < p)%Z -> round radix2 (FLX_exp p) Zfloor x <= x.
Proof.
  intros Hp. apply round_DN_pt. apply FLX_exp_valid. exact Hp.
Qed.
Lemma round_ceil_ge p x : (0 < p)%Z -> x <= round radix2 (FLX_exp p) Zceil x.
Proof.
  intros Hp. apply round_UP_pt. apply FLX_exp_valid. exact Hp.
Qed.

Lemma arb_interval_spec x a b : arb_interval x = Some (a, b) ->
  forall v, contains x v -> arf2R a <= v <= arf2R b.
Proof.
  unfold arb_interval. destruct (rad x) as [r|] eqn:Er; [|discriminate].
  destruct (Z.eqb_spec (rel_accuracy_bits x) ARF_PREC_EXACT).
  - intros [= <- <-] v Hv. apply (contains_bounds x r) in Hv; [|exact Er].
    rewrite arf_sub_exact_spec, arf_add_exact_spec. exact Hv.
  - destruct (Z.ltb_spec (rel_accuracy_bits x) 2); [discriminate|].
    intros [= <- <-] v Hv. apply (contains_bounds x r) in Hv; [|exact Er].
    rewrite arf_sub_spec, arf_add_spec by lia. simpl rndZ.
    pose proof (round_floor_le (rel_accuracy_bits x) (arf2R (mid x) - arf2R r) ltac:(lia)).
    pose proof (round_ceil_ge (rel_accuracy_bits x) (arf2R (mid x) + arf2R r) ltac:(lia)).
    lra.
Qed.

(** Ball arithmetic. *)
Lemma round_err_nonneg prec e : 0 <= arf2R (round_err prec e).
Proof.
  unfold round_err. destruct prec as [p|].
  - destruct (arf_eqb _ e); [rewrite arf_zero_spec; lra|].
    unfold arf2R; simpl. pose proof (bpow2_pos (arf_expo e - p)). lra.
  - rewrite arf_zero_spec; lra.
Qed.

Lemma round_err_spec prec e : (match prec with Some p => 0 < p | None => True end)%Z ->
  Rabs (arf2R e - arf2R (round_mid prec e)) <= arf2R (round_err prec e).
Proof.
  destruct prec as [p|]; simpl; intros Hp.
  - destruct (arf_eqb (arf_round DOWN p e) e) eqn:E.
    + apply arf_eqb_spec in E. rewrite E, arf_zero_spec, Rminus_eq_0, Rabs_R0. lra.
    + assert (He : am e <> 0%Z).
      { intros C. assert (arf_eqb (arf_round DOWN p e) e = true); [|congruence].
        apply arf_eqb_spec. rewrite arf_round_spec by lia.
        replace (arf2R e) with 0 by (symmetry; apply arf2R_eq0; exact C).
        apply round_0. apply rndZ_valid. }
      assert (PH : Prec_gt_0 p) by exact Hp.
      rewrite arf_round_spec by lia. rewrite Rabs_minus_sym.
      pose proof (error_le_ulp radix2 (FLX_exp p) (rndZ DOWN) (arf2R e)) as H.
      rewrite ulp_neq_0 in H by (rewrite arf2R_eq0; exact He).
      unfold cexp, FLX_exp in H. rewrite <- arf_expo_mag in H by exact He.
      unfold arf2R at 3; cbn [am ae]. rewrite Rmult_1_l. apply H.
  - rewrite Rminus_eq_0, Rabs_R0, arf_zero_spec. lra.
Qed.

Lemma mk_ball_contains mag_up prec e r v : mag_up_ok mag_up -> prec_ok prec -> 0 <= arf2R r ->
  Rabs (v - arf2R e) <= arf2R r -> contains (mk_ball mag_up prec e (Some r)) v.
Proof.
  intros Hm Hp Hr Hv. unfold contains, mk_ball; simpl.
  eapply Rle_trans; [|apply Hm].
  - rewrite arf_add_exact_spec. pose proof (round_err_spec prec e Hp) as He.
    replace (v - arf2R (round_mid prec e)) with ((v - arf2R e) + (arf2R e - arf2R (round_mid prec e))) by ring.
    eapply Rle_trans; [apply Rabs_triang|]. lra.
  - rewrite arf_add_exact_spec. pose proof (round_err_nonneg prec e). lra.
Qed.

Lemma arb_add_contains mag_up prec x y u v : mag_up_ok mag_up -> prec_ok prec ->
  arb_wf x -> arb_wf y -> contains x u -> contains y v -> contains (arb_add mag_up prec x y) (u + v).
Proof.
  intros Hm Hp Wx Wy Hu Hv. unfold arb_add.
  destruct (rad x) as [rx|] eqn:Ex; [|exact I]. destruct (rad y) as [ry|] eqn:Ey; [|exact I].
  pose proof (arb_wf_rad _ _ Wx Ex). pose proof (arb_wf_rad _ _ Wy Ey).
  unfold contains in Hu, Hv. rewrite Ex in Hu. rewrite Ey in Hv. cbn [rad2].
  apply mk_ball_contains; auto; rewrite !arf_add_exact_spec; [lra|].
  replace (u + v - (arf2R (mid x) + arf2R (mid y))) with ((u - arf2R (mid x)) + (v - arf2R (mid y))) by ring.
  eapply Rle_trans; [apply Rabs_triang|]. lra.
Qed.

Lemma arb_neg_contains x u : contains x u -> contains (arb_neg x) (- u).
Proof.
  unfold contains, arb_neg; simpl. destruct (rad x); [|auto].
  rewrite arf_neg_spec. replace (- u - - arf2R (mid x)) with (- (u - arf2R (mid x))) by ring.
  rewrite Rabs_Ropp. auto.
Qed.

Lemma arb_neg_wf x : arb_wf x -> arb_wf (arb_neg x).
Proof. unfold arb_wf, arb_neg; simpl; auto. Qed.

Lemma arb_sub_contains mag_up prec x y u v : mag_up_ok mag_up -> prec_ok prec ->
  arb_wf x -> arb_wf y -> contains x u -> contains y v -> contains (arb_sub mag_up prec x y) (u - v).
Proof.
  intros Hm Hp Wx Wy Hu Hv. unfold arb_sub, Rminus.
  exact (arb_add_contains _ _ _ _ _ _ Hm Hp Wx (arb_neg_wf _ Wy) Hu (arb_neg_contains _ _ Hv)).
Qed.

Lemma arb_mul_contains mag_up prec x y u v : mag_up_ok mag_up -> prec_ok prec ->
  arb_wf x -> arb_wf y -> contains x u -> contains y v -> contains (arb_mul mag_up prec x y) (u * v).
Proof.
  intros Hm Hp Wx Wy Hu Hv. unfold arb_mul.
  destruct (rad x) as [rx|] eqn:Ex; [|exact I]. destruct (rad y) as [ry|] eqn:Ey; [|exact I].
  pose proof (arb_wf_rad _ _ Wx Ex). pose proof (arb_wf_rad _ _ Wy Ey).
  unfold contains in Hu, Hv. rewrite Ex in Hu. rewrite Ey in Hv. cbn [rad2].
  pose proof (Rabs_pos (arf2R (mid x))). pose proof (Rabs_pos (arf2R (mid y))).
  apply mk_ball_contains; auto; rewrite !arf_add_exact_spec, !arf_mul_exact_spec, !arf_abs_spec; [nra|].
  set (a := arf2R (mid x)) in *. set (b := arf2R (mid y)) in *.
  replace (u * v - a * b) with (a * (v - b) + (b * (u - a) + (u - a) * (v - b))) by ring.
  eapply Rle_trans; [apply Rabs_triang|]. apply Rplus_le_compat.
  - rewrite Rabs_mult. apply Rmult_le_compat_l; assumption.
  - eapply Rle_trans; [apply Rabs_triang|]. apply Rplus_le_compat.
    + rewrite Rabs_mult. apply Rmult_le_compat_l; assumption.
    + rewrite Rabs_mult. apply Rmult_le_compat; auto using Rabs_pos.
Qed.

Lemma mag_up_wf mag_up r : mag_up_ok mag_up -> 0 <= arf2R r -> (0 <= am (mag_up r))%Z.
Proof. intros H Hr. apply arf2R_nonneg. specialize (H r Hr). lra. Qed.

Lemma arb_add_wf mag_up prec x y : mag_up_ok mag_up -> arb_wf x -> arb_wf y -> arb_wf (arb_add mag_up prec x y).
Proof.
  intros Hm Wx Wy. unfold arb_wf, arb_add, mk_ball; simpl.
  destruct (rad x) as [rx|] eqn:Ex; [|exact I]. destruct (rad y) as [ry|] eqn:Ey; [|exact I].
  pose proof (arb_wf_rad _ _ Wx Ex). pose proof (arb_wf_rad _ _ Wy Ey). simpl.
  apply mag_up_wf; [exact Hm|]. rewrite !arf_add_exact_spec.
  pose proof (round_err_nonneg prec (arf_add_exact (mid x) (mid y))). lra.
Qed.

Lemma arb_mul_wf mag_up prec x y : mag_up_ok mag_up -> arb_wf x -> arb_wf y -> arb_wf (arb_mul mag_up prec x y).
Proof.
  intros Hm Wx Wy. unfold arb_wf, arb_mul, mk_ball; simpl.
  destruct (rad x) as [rx|] eqn:Ex; [|exact I]. destruct (rad y) as [ry|] eqn:Ey; [|exact I].
  pose proof (arb_wf_rad _ _ Wx Ex). pose proof (arb_wf_rad _ _ Wy Ey). simpl.
  apply mag_up_wf; [exact Hm|]. rewrite !arf_add_exact_spec, !arf_mul_exact_spec, !arf_abs_spec.
  pose proof (round_err_nonneg prec (arf_mul_exact (mid x) (mid y))).
  pose proof (Rabs_pos (arf2R (mid x))). pose proof (Rabs_pos (arf2R (mid y))). nra.
Qed.

Lemma arb_of_arf_contains a : contains (arb_of_arf a) (arf2R a).
Proof. unfold contains; simpl. rewrite Rminus_eq_0, Rabs_R0, arf_zero_spec. lra. Qed.
Lemma arb_of_arf_contains_iff a v : contains (arb_of_arf a) v <-> v = arf2R a.
Proof.
  unfold contains; simpl. rewrite arf_zero_spec. split.
  - intros H. pose proof (Rabs_pos (v - arf2R a)). assert (HZ : Rabs (v - arf2R a) = 0) by lra.
    destruct (Req_dec (v - arf2R a) 0) as [E|E]; [lra|]. apply Rabs_no_R0 in E. lra.
  - intros ->. rewrite Rminus_eq_0, Rabs_R0. lra.
Qed.
Lemma arb_of_arf_wf a : arb_wf (arb_of_arf a).
Proof. unfold arb_wf; simpl. lia. Qed.
Lemma arb_of_Z_contains_iff n v : contains (arb_of_Z n) v <-> v = IZR n.
Proof. unfold arb_of_Z. rewrite arb_of_arf_contains_iff, arf_of_Z_spec. tauto. Qed.

Lemma round_FLX_neq0 prec rnd {V : Valid_rnd rnd} x : (0 < prec)%Z -> x <> 0 ->
  round radix2 (FLX_exp prec) rnd x <> 0.
Proof.
  intros Hp Hx. assert (PH : Prec_gt_0 prec) by exact Hp.
  apply round_neq_0_negligible_exp; auto with typeclass_instances.
  apply negligible_exp_FLX. exact PH.
Qed.

Lemma arb_div_contains mag_up prec x y u v : mag_up_ok mag_up -> (0 < prec)%Z ->
  arb_wf x -> arb_wf y -> contains x u -> contains y v -> contains (arb_div mag_up prec x y) (u / v).
Proof.
  intros Hm Hp Wx Wy Hu Hv. unfold arb_div.
  destruct (rad x) as [rx|] eqn:Ex; [|exact I]. destruct (rad y) as [ry|] eqn:Ey; [|exact I].
  pose proof (arb_wf_rad _ _ Wx Ex) as Hrx. pose proof (arb_wf_rad _ _ Wy Ey) as Hry.
  unfold contains in Hu, Hv. rewrite Ex in Hu. rewrite Ey in Hv.
  set (low := arf_sub_exact (arf_abs (mid y)) ry).
  destruct (Z.leb_spec (am low) 0) as [Hl|Hl]; [exact I|].
  assert (Hlow : 0 < Rabs (arf2R (mid y)) - arf2R ry).
  { apply arf2R_pos in Hl. unfold low in Hl. rewrite arf_sub_exact_spec, arf_abs_spec in Hl. exact Hl. }
  pose proof (arf_div_spec prec DOWN (mid x) (mid y) Hp) as Hd.
  destruct (arf_div prec DOWN (mid x) (mid y)) as [m|]; [|exact I].
  set (num := arf_add_exact (arf_mul_exact (arf_abs (mid x)) ry) (arf_mul_exact (arf_abs (mid y)) rx)).
  set (den := arf_mul_exact (arf_abs (mid y)) low).
  pose proof (arf_div_spec 60 CEIL num den ltac:(lia)) as Hr.
  destruct (arf_div 60 CEIL num den) as [r|]; [|exact I].
  assert (PH : Prec_gt_0 prec) by exact Hp.
  destruct Hd as [Hy0 Hd]. destruct Hr as [Hden Hr].
  set (a := arf2R (mid x)) in *. set (b := arf2R (mid y)) in *.
  assert (Hnum : arf2R num = Rabs a * arf2R ry + Rabs b * arf2R rx).
  { unfold num. rewrite arf_add_exact_spec, !arf_mul_exact_spec, !arf_abs_spec. reflexivity. }
  assert (Hden' : arf2R den = Rabs b * (Rabs b - arf2R ry)).
  { unfold den, low. rewrite arf_mul_exact_spec, arf_sub_exact_spec, !arf_abs_spec. reflexivity. }
  pose proof (Rabs_pos a) as Pa. pose proof (Rabs_pos b) as Pb.
  assert (Hb : 0 < Rabs b) by lra.
  assert (Hrge : arf2R num / arf2R den <= arf2R r).
  { rewrite Hr. simpl rndZ. apply round_ceil_ge. lia. }
  assert (Hnum0 : 0 <= arf2R num) by (rewrite Hnum; nra).
  assert (Hden0 : 0 < arf2R den) by (rewrite Hden'; nra).
  assert (Hq0 : 0 <= arf2R num / arf2R den)
    by (apply Rmult_le_pos; [assumption|left; apply Rinv_0_lt_compat; assumption]).
  assert (Hv0 : Rabs b - arf2R ry <= Rabs v).
  { pose proof (Rabs_triang_inv b v). rewrite Rabs_minus_sym in Hv. lra. }
  assert (Hvn : v <> 0). { intros ->. rewrite Rabs_R0 in Hv0. lra. }
  assert (Hbn : b <> 0). { intros C. rewrite C, Rabs_R0 in Hb. lra. }
  assert (Hmain : Rabs (u / v - a / b) <= arf2R num / arf2R den).
  { replace (u / v - a / b) with ((b * (u - a) - a * (v - b)) / (b * v)) by (field; split; assumption).
    unfold Rdiv. rewrite Rabs_mult, Rabs_inv. 
    apply Rmult_le_compat; [apply Rabs_pos|left; apply Rinv_0_lt_compat; apply Rabs_pos_lt; apply Rmult_integral_contrapositive; split; assumption| |].
    - eapply Rle_trans; [apply Rabs_triang|]. rewrite Rabs_Ropp, !Rabs_mult, Hnum.
      rewrite Rplus_comm. apply Rplus_le_compat; apply Rmult_le_compat_l; assumption.
    - apply Rinv_le; [assumption|]. rewrite Hden', Rabs_mult.
      apply Rmult_le_compat_l; [lra|exact Hv0]. }
  unfold contains; simpl.
  assert (Hulp : Rabs (a / b - arf2R m) <= bpow radix2 (arf_expo m + 1 - prec)).
  { destruct (Req_dec (a / b) 0) as [E0|E0].
    - rewrite Hd, E0, round_0 by apply rndZ_valid. rewrite Rminus_eq_0, Rabs_R0. left; apply bpow2_pos.
    - rewrite Rabs_minus_sym, Hd.
      eapply Rle_trans; [apply error_le_ulp; [apply FLX_exp_valid; exact Hp|apply rndZ_valid]|].
      rewrite ulp_neq_0 by exact E0. unfold cexp, FLX_exp. apply bpow_le.
      assert (Hr0 : round radix2 (FLX_exp prec) Ztrunc (a / b) <> 0)
        by (apply round_FLX_neq0; [apply valid_rnd_ZR|exact Hp|exact E0]).
      assert (Hm0 : am m <> 0%Z).
      { intros C. apply arf2R_eq0 in C. rewrite Hd in C. exact (Hr0 C). }
      rewrite arf_expo_mag by exact Hm0. rewrite Hd. simpl rndZ.
      rewrite mag_round_ZR; [lia|apply FLX_exp_valid; exact Hp|exact Hr0]. }
  eapply Rle_trans; [|apply Hm].
  - rewrite arf_add_exact_spec.
    replace (u / v - arf2R m) with ((u / v - a / b) + (a / b - arf2R m)) by ring.
    eapply Rle_trans; [apply Rabs_triang|].
    replace (arf2R (mkArf 1 (arf_expo m + 1 - prec))) with (bpow radix2 (arf_expo m + 1 - prec)) by (unfold arf2R; simpl; ring).
    lra.
  - rewrite arf_add_exact_spec. 
    replace (arf2R (mkArf 1 (arf_expo m + 1 - prec))) with (bpow radix2 (arf_expo m + 1 - prec)) by (unfold arf2R; simpl; ring).
    pose proof (bpow2_pos (arf_expo m + 1 - prec)). lra.
Qed.

Lemma arb_div_wf mag_up prec x y : mag_up_ok mag_up -> (0 < prec)%Z -> arb_wf x -> arb_wf y -> arb_wf (arb_div mag_up prec x y).
Proof.
  intros Hm Hp Wx Wy. unfold arb_wf, arb_div.
  destruct (rad x) as [rx|] eqn:Ex; [|exact I]. destruct (rad y) as [ry|] eqn:Ey; [|exact I].
  pose proof (arb_wf_rad _ _ Wx Ex) as Hrx. pose proof (arb_wf_rad _ _ Wy Ey) as Hry.
  set (low := arf_sub_exact (arf_abs (mid y)) ry).
  destruct (Z.leb_spec (am low) 0) as [Hl|Hl]; [exact I|].
  destruct (arf_div prec DOWN (mid x) (mid y)) as [m|]; [|exact I].
  set (num := arf_add_exact _ _). set (den := arf_mul_exact _ _).
  pose proof (arf_div_spec 60 CEIL num den ltac:(lia)) as Hr.
  destruct (arf_div 60 CEIL num den) as [r|]; [|exact I]. simpl.
  apply mag_up_wf; [exact Hm|]. rewrite arf_add_exact_spec.
  destruct Hr as [Hden Hr].
  assert (Hlow : 0 < arf2R low) by (apply arf2R_pos; exact Hl).
  assert (0 <= arf2R r).
  { rewrite Hr. simpl rndZ. eapply Rle_trans; [|apply round_ceil_ge; lia].
    apply Rmult_le_pos.
    - unfold num. rewrite arf_add_exact_spec, !arf_mul_exact_spec, !arf_abs_spec.
      pose proof (Rabs_pos (arf2R (mid x))). pose proof (Rabs_pos (arf2R (mid y))). nra.
    - left. apply Rinv_0_lt_compat. 
      assert (0 <= arf2R den); [|lra].
      unfold den. rewrite arf_mul_exact_spec, arf_abs_spec. pose proof (Rabs_pos (arf2R (mid y))). nra. }
  replace (arf2R (mkArf 1 (arf_expo m + 1 - prec))) with (bpow radix2 (arf_expo m + 1 - prec)) by (unfold arf2R; simpl; ring).
  pose proof (bpow2_pos (arf_expo m + 1 - prec)). lra.
Qed.

Section RationalComparison.
  Variable mag_up : arf -> arf.
  Hypothesis Hm : mag_up_ok mag_up.
  Variables (x : arb) (n d : Z).
  Hypothesis (Wx : arb_wf x) (Hd : (0 < d)%Z).

  Lemma times_den_wf : arb_wf (arb_times_den mag_up x d).
  Proof. apply arb_mul_wf; auto. apply arb_of_arf_wf. Qed.

  Lemma times_den_contains p : contains x p -> contains (arb_times_den mag_up x d) (p * IZR d).
  Proof.
    intros Hp. apply arb_mul_contains; auto; [exact I|apply arb_of_arf_wf|].
    apply arb_of_Z_contains_iff. reflexivity.
  Qed.

  Lemma sound_of_tri (Rel : R -> R -> Prop) o :
    (forall p, Rel (p * IZR d) (IZR n) <-> Rel p (IZR n / IZR d)) ->
    tri Rel (arb_times_den mag_up x d) (arb_of_Z n) o -> sound Rel x (IZR n / IZR d) o.
  Proof.
    intros HR [H1 H2]. split; intros Ho p Hp.
    - apply HR. apply (proj1 H1 Ho); [apply times_den_contains; exact Hp|apply arb_of_Z_contains_iff; reflexivity].
    - rewrite <- HR. apply (proj1 H2 Ho); [apply times_den_contains; exact Hp|apply arb_of_Z_contains_iff; reflexivity].
  Qed.

  Lemma cross_lt p : p * IZR d < IZR n <-> p < IZR n / IZR d.
  Proof.
    pose proof (IZR_lt _ _ Hd). split; intros H0.
    - apply Rmult_lt_reg_r with (IZR d); [lra|]. unfold Rdiv. rewrite Rmult_assoc, Rinv_l by lra. lra.
    - apply Rmult_lt_compat_r with (r := IZR d) in H0; [|lra]. unfold Rdiv in H0. rewrite Rmult_assoc, Rinv_l in H0 by lra. lra.
  Qed.
  Lemma cross_gt p : p * IZR d > IZR n <-> p > IZR n / IZR d.
  Proof.
    pose proof (IZR_lt _ _ Hd). unfold Rgt. split; intros H0.
    - apply Rmult_lt_reg_r with (IZR d); [lra|]. unfold Rdiv. rewrite Rmult_assoc, Rinv_l by lra. lra.
    - apply Rmult_lt_compat_r with (r := IZR d) in H0; [|lra]. unfold Rdiv in H0. rewrite Rmult_assoc, Rinv_l in H0 by lra. lra.
  Qed.
  Lemma cross_eq p : p * IZR d = IZR n <-> p = IZR n / IZR d.
  Proof.
    pose proof (IZR_lt _ _ Hd). split; intros H0.
    - rewrite <- H0. field. lra.
    - rewrite H0. field. lra.
  Qed.

  Lemma opq_lt_sound : sound Rlt x (IZR n / IZR d) (opq_lt mag_up x n d).
  Proof. apply sound_of_tri; [apply cross_lt|]. apply op_lt_spec; [apply times_den_wf|apply arb_of_arf_wf]. Qed.
  Lemma opq_gt_sound : sound Rgt x (IZR n / IZR d) (opq_gt mag_up x n d).
  Proof. apply sound_of_tri; [apply cross_gt|]. apply op_gt_spec; [apply times_den_wf|apply arb_of_arf_wf]. Qed.
  Lemma opq_le_sound : sound Rle x (IZR n / IZR d) (opq_le mag_up x n d).
  Proof.
    apply sound_of_tri; [|apply op_le_spec; [apply times_den_wf|apply arb_of_arf_wf]].
    intros p. pose proof (cross_gt p). lra.
  Qed.
  Lemma opq_ge_sound : sound Rge x (IZR n / IZR d) (opq_ge mag_up x n d).
  Proof.
    apply sound_of_tri; [|apply op_ge_spec; [apply times_den_wf|apply arb_of_arf_wf]].
    intros p. pose proof (cross_lt p). lra.
  Qed.
  Lemma opq_eq_sound : sound (@eq R) x (IZR n / IZR d) (opq_eq mag_up x n d).
  Proof. apply sound_of_tri; [apply cross_eq|]. apply op_eq_spec; [apply times_den_wf|apply arb_of_arf_wf]. Qed.
End RationalComparison.

Lemma opq_ne_counterexample : exists x n d, arb_wf x /\ (0 < d)%Z /\
  ~ sound (fun p q => p <> q) x (IZR n / IZR d) (opq_ne (fun r => r) x n d).
Proof.
  exists (arb_of_arf (mkArf 1 (-1))), 1%Z, 2%Z. split; [apply arb_of_arf_wf|]. split; [lia|].
  intros [H _]. replace (opq_ne (fun r => r) (arb_of_arf (mkArf 1 (-1))) 1 2) with (Some true) in H by (vm_compute; reflexivity).
  apply (H eq_refl (1 / 2)); [|reflexivity]. apply arb_of_arf_contains_iff. unfold arf2R. simpl. lra.
Qed.
