(** Floors of coefficients. *)
From Coq Require Import ZArith QArith Qcanon Bool List Reals Qreals Lra Lia.
From Verif Require Import Gen SpecGen GenProofs Ring SpecRing RingProofs.
Open Scope R_scope.

Lemma int_floor x : is_floor (cfloor (r := int_ring) x) (val int_sem x).
Proof. cbn. unfold is_floor. lra. Qed.
Lemma quot_floor n d : (0 < d)%Z -> (0 <= n)%Z \/ (d | n)%Z -> Z.quot n d = (n / d)%Z.
Proof.
  intros D [H|[k ->]]; [apply Z.quot_div_nonneg; assumption|]. rewrite Z.quot_mul, Z.div_mul by lia. reflexivity.
Qed.
Lemma div_is_floor n d : (0 < d)%Z -> is_floor (n / d) (IZR n / IZR d).
Proof.
  intros D. pose proof (IZR_lt _ _ D). unfold is_floor. pose proof (Z.div_mod n d ltac:(lia)) as E. pose proof (Z.mod_pos_bound n d D) as [B1 B2].
  apply IZR_le in B1. apply IZR_lt in B2. rewrite E at 2 3. rewrite plus_IZR, mult_IZR. set (k := IZR (n / d)) in *. set (r := IZR (n mod d)) in *.
  split.
  - apply Rmult_le_reg_r with (IZR d); [assumption|]. replace ((IZR d * k + r) / IZR d * IZR d) with (IZR d * k + r) by (field; lra). lra.
  - apply Rmult_lt_reg_r with (IZR d); [assumption|]. replace ((IZR d * k + r) / IZR d * IZR d) with (IZR d * k + r) by (field; lra). lra.
Qed.
Lemma rat_floor_nonneg (x : Qc) : 0 <= Q2R x \/ (exists n, Q2R x = IZR n) -> is_floor (rat_floor x) (Q2R x).
Proof.
  intros H. unfold rat_floor. pose proof (qc_den_pos x) as D. pose proof (qc_den_R x) as DR. rewrite quot_floor; [rewrite Q2R_num_den; apply div_is_floor, D|exact D|].
  destruct H as [H|[n H]].
  - left. rewrite Q2R_num_den in H. apply le_IZR. apply Rmult_le_reg_r with (/ IZR (qc_den x)); [apply Rinv_0_lt_compat; assumption|]. lra.
  - right. exists n. apply eq_IZR. rewrite mult_IZR, <- H, Q2R_num_den. field. lra.
Qed.
(** Otherwise it is off by one. *)
Lemma rat_floor_negative (x : Qc) : Q2R x < 0 -> (forall n, Q2R x <> IZR n) -> is_floor (rat_floor x - 1) (Q2R x).
Proof.
  intros H N. unfold rat_floor. pose proof (qc_den_pos x) as D. pose proof (qc_den_R x) as DR.
  assert (Hn : (qc_num x < 0)%Z). { apply lt_IZR. rewrite Q2R_num_den in H. apply Rmult_lt_reg_r with (/ IZR (qc_den x)); [apply Rinv_0_lt_compat; assumption|]. lra. }
  assert (E : (Z.quot (qc_num x) (qc_den x) - 1 = qc_num x / qc_den x)%Z).
  { remember (- qc_num x)%Z as m eqn:Em. assert (En : qc_num x = (- m)%Z) by lia. rewrite En. rewrite Z.quot_opp_l by lia. rewrite Z.quot_div_nonneg by lia.
    rewrite Z.div_opp_l_nz; [reflexivity|lia|]. intros M. apply Z.mod_divide in M; [|lia]. destruct M as [k M]. apply (N (- k)%Z).
    rewrite Q2R_num_den. replace (qc_num x) with (- k * qc_den x)%Z by lia. rewrite mult_IZR, opp_IZR. field. lra. }
  rewrite E, Q2R_num_den. apply div_is_floor, D.
Qed.

Lemma floor_div k y w : (0 < w)%Z -> is_floor k y -> is_floor (k / w) (y / IZR w).
Proof.
  intros W [H1 H2]. pose proof (IZR_lt _ _ W) as WR. unfold is_floor. pose proof (Z.div_mod k w ltac:(lia)) as E. pose proof (Z.mod_pos_bound k w W) as [B1 B2].
  assert (E1 : (w * (k / w) <= k)%Z) by lia. assert (E2 : (k + 1 <= w * (k / w) + w)%Z) by lia. apply IZR_le in E1, E2. rewrite ?plus_IZR, ?mult_IZR in *.
  set (q := IZR (k / w)) in *. split.
  - apply Rmult_le_reg_r with (IZR w); [assumption|]. replace (y / IZR w * IZR w) with y by (field; lra). lra.
  - apply Rmult_lt_reg_r with (IZR w); [assumption|]. replace (y / IZR w * IZR w) with y by (field; lra). lra.
Qed.
Lemma floor_add n k y : is_floor k y -> is_floor (n + k) (IZR n + y).
Proof. unfold is_floor. rewrite plus_IZR. lra. Qed.
Lemma sqrt_floor n : (0 <= n)%Z -> is_floor (Z.sqrt n) (sqrt (IZR n)).
Proof.
  intros H. pose proof (Z.sqrt_spec n H) as [H1 H2]. pose proof (Z.sqrt_nonneg n) as H3. apply IZR_le in H1, H3. apply IZR_lt in H2. rewrite !mult_IZR, ?succ_IZR in *.
  split.
  - rewrite <- (sqrt_square (IZR (Z.sqrt n))) by assumption. apply sqrt_le_1_alt. assumption.
  - rewrite <- (sqrt_square (IZR (Z.sqrt n) + 1)) by lra. apply sqrt_lt_1_alt. split; [apply IZR_le; exact H|assumption].
Qed.
Lemma quad_floor_spec p x : mem quad_sem p x -> is_floor (cfloor (r := quad_ring) x) (val quad_sem x).
Proof.
  intros H. cbn [cfloor quad_ring val quad_sem]. unfold quad_floor.
  pose proof (qc_den_pos (qa x)) as Da. pose proof (qc_den_pos (qb x)) as Db. pose proof (qc_den_R (qa x)) as Ra. pose proof (qc_den_R (qb x)) as Rb.
  set (w := (qc_den (qa x) * qc_den (qb x))%Z). set (u := (qc_num (qa x) * qc_den (qb x))%Z). set (v := (qc_num (qb x) * qc_den (qa x))%Z).
  assert (W : (0 < w)%Z) by (unfold w; nia). pose proof (IZR_lt _ _ W) as WR.
  assert (V : Q2R (qa x) + Q2R (qb x) * sqrt (IZR (qd x)) = (IZR u + IZR v * sqrt (IZR (qd x))) / IZR w).
  { rewrite (Q2R_num_den (qa x)), (Q2R_num_den (qb x)). unfold u, v, w. rewrite !mult_IZR. field. lra. }
  rewrite V. destruct (Z.eqb_spec v 0) as [E|E].
  { rewrite E. rewrite Rmult_0_l, Rplus_0_r. apply div_is_floor, W. }
  assert (B : qb x <> 0%Qc). { intros B. apply E. unfold v. apply Q2R_Qc_0' in B. apply qc_num_0 in B. rewrite B. reflexivity. }
  assert (NS : nonsquare (qd x) = true).
  { cbn in H. destruct H as [[Hb _]|[_ H]]; [contradiction|]. destruct p as [n|d Hd]; [contradiction|]. rewrite H. exact Hd. }
  pose proof (nonsquare_gt _ NS) as Dpos.
  assert (Pos : (0 <= v * v * qd x)%Z) by nia.
  assert (SQ : sqrt (IZR (v * v * qd x)) = Rabs (IZR v) * sqrt (IZR (qd x))).
  { rewrite !mult_IZR, sqrt_mult; [|nra|apply IZR_le; lia]. rewrite <- sqrt_Rsqr_abs. reflexivity. }
  pose proof (sqrt_floor _ Pos) as F. rewrite SQ in F. destruct (Z.ltb_spec 0 v) as [Pv|Pv].
  - rewrite Rabs_right in F by (apply Rle_ge, IZR_le; lia). apply floor_div; [exact W|]. apply floor_add, F.
  - rewrite Rabs_left in F by (apply IZR_lt; lia). apply floor_div; [exact W|].
    replace (u - Z.sqrt (v * v * qd x) - 1)%Z with (u + (- Z.sqrt (v * v * qd x) - 1))%Z by lia. apply floor_add.
    assert (N : IZR (Z.sqrt (v * v * qd x)) <> - IZR v * sqrt (IZR (qd x))).
    { intros Q. apply (sqrt_irrational (qd x) (Q2Qc (Z.sqrt (v * v * qd x) # Z.to_pos (- v))) NS).
      rewrite Q2R_Q2Qc. unfold Q2R. cbn [Qnum Qden]. rewrite Z2Pos.id by lia. rewrite Q, opp_IZR. field. apply not_0_IZR, E. }
    unfold is_floor in *. rewrite minus_IZR, opp_IZR. destruct F as [F1 F2]. destruct F1 as [F1|F1]; [|contradiction]. lra.
Qed.
