(** Proofs about [Arf.v]: correctness of the computable operations with
    respect to real numbers and Flocq's rounding. *)
From Coq Require Import ZArith Bool List Reals Lia Lra.
From Flocq Require Import Core.
From Verif Require Import Arf Arb SpecArf.
Import ListNotations.
Open Scope Z_scope.

Global Instance rndZ_valid md : Valid_rnd (rndZ md).
Proof. destruct md; simpl; auto with typeclass_instances. Qed.

Lemma IZR_pow2 k : 0 <= k -> IZR (2 ^ k) = bpow radix2 k.
Proof. intros H. rewrite <- (IZR_Zpower radix2) by exact H. reflexivity. Qed.

Lemma bpow2_pos e : (0 < bpow radix2 e)%R.
Proof. apply bpow_gt_0. Qed.

Lemma pow2_pos k : 0 <= k -> 0 < 2 ^ k.
Proof. intros. apply Z.pow_pos_nonneg; lia. Qed.

Section Div.
  Variables n d : Z.
  Hypothesis Hd : 0 < d.

  Lemma IZR_d_pos : (0 < IZR d)%R.
  Proof. apply IZR_lt; exact Hd. Qed.

  Lemma quot_split : (IZR n / IZR d = IZR (n / d) + IZR (n mod d) / IZR d)%R.
  Proof.
    pose proof IZR_d_pos.
    rewrite (Z.div_mod n d) at 1 by lia.
    rewrite plus_IZR, mult_IZR. field. lra.
  Qed.

  Lemma rem_range : (0 <= IZR (n mod d) / IZR d < 1)%R.
  Proof.
    pose proof IZR_d_pos.
    pose proof (Z.mod_pos_bound n d Hd) as [H0 H1].
    apply IZR_le in H0. apply IZR_lt in H1.
    split.
    - apply Rmult_le_pos; [lra | left; apply Rinv_0_lt_compat; lra].
    - apply Rmult_lt_reg_r with (IZR d); [lra|].
      unfold Rdiv. rewrite Rmult_assoc, Rinv_l by lra. lra.
  Qed.

  Lemma zfloor_quot : Zfloor (IZR n / IZR d) = n / d.
  Proof.
    apply Zfloor_imp. rewrite plus_IZR, quot_split.
    pose proof rem_range. simpl. lra.
  Qed.

  Lemma zceil_quot : Zceil (IZR n / IZR d) = (if n mod d =? 0 then n / d else n / d + 1).
  Proof.
    pose proof rem_range as Hr. pose proof IZR_d_pos.
    destruct (Z.eqb_spec (n mod d) 0) as [E|E].
    - rewrite quot_split, E. unfold Rdiv at 1. rewrite Rmult_0_l, Rplus_0_r. apply Zceil_IZR.
    - apply Zceil_imp. replace (n / d + 1 - 1) with (n / d) by lia.
      rewrite plus_IZR, quot_split.
      assert (0 < IZR (n mod d) / IZR d)%R.
      { apply Rdiv_lt_0_compat; [|lra]. apply IZR_lt.
        pose proof (Z.mod_pos_bound n d Hd). lia. }
      simpl. lra.
  Qed.

  Lemma quot_neg : (IZR n / IZR d < 0)%R <-> n < 0.
  Proof.
    pose proof IZR_d_pos.
    split; intros Hn.
    - apply lt_IZR. apply Rmult_lt_reg_r with (/ IZR d)%R; [apply Rinv_0_lt_compat; lra|].
      unfold Rdiv in Hn. lra.
    - apply IZR_lt in Hn. unfold Rdiv.
      apply Rmult_lt_reg_r with (IZR d); [lra|]. rewrite Rmult_assoc, Rinv_l by lra. lra.
  Qed.

  Lemma zround_spec md : rndZ md (IZR n / IZR d)%R = zround md n d.
  Proof.
    pose proof IZR_d_pos as Hd'. unfold zround.
    destruct md; simpl rndZ.
    - unfold ZnearestE, Znearest. rewrite zfloor_quot.
      assert (Hsub : (IZR n / IZR d - IZR (n / d) = IZR (n mod d) / IZR d)%R)
        by (rewrite quot_split; ring).
      rewrite Hsub.
      assert (Hc : Zceil (IZR n / IZR d) = if n mod d =? 0 then n / d else n / d + 1)
        by apply zceil_quot.
      destruct (Z.compare_spec (2 * (n mod d)) d) as [E|L|G].
      + rewrite Rcompare_Eq.
        2:{ apply Rmult_eq_reg_r with (2 * IZR d)%R; [|lra].
            replace (IZR (n mod d) / IZR d * (2 * IZR d))%R with (2 * IZR (n mod d))%R by (field; lra).
            rewrite <- (mult_IZR 2), E. field. }
        rewrite Hc. destruct (Z.eqb_spec (n mod d) 0); [exfalso; lia|].
        rewrite negb_if. destruct (Z.even (n / d)); reflexivity.
      + rewrite Rcompare_Lt; [reflexivity|].
        apply IZR_lt in L. rewrite mult_IZR in L.
        apply Rmult_lt_reg_r with (2 * IZR d)%R; [lra|].
        replace (IZR (n mod d) / IZR d * (2 * IZR d))%R with (2 * IZR (n mod d))%R by (field; lra).
        lra.
      + rewrite Rcompare_Gt.
        * rewrite Hc. pose proof (Z.mod_pos_bound n d Hd).
          destruct (Z.eqb_spec (n mod d) 0); [lia|reflexivity].
        * apply IZR_lt in G. rewrite mult_IZR in G.
          apply Rmult_lt_reg_r with (2 * IZR d)%R; [lra|].
          replace (IZR (n mod d) / IZR d * (2 * IZR d))%R with (2 * IZR (n mod d))%R by (field; lra).
          lra.
    - apply zfloor_quot.
    - apply zceil_quot.
    - unfold Ztrunc. destruct (Z.ltb_spec n 0) as [Hn|Hn].
      + rewrite Rlt_bool_true by (apply quot_neg; lia). apply zceil_quot.
      + rewrite Rlt_bool_false; [apply zfloor_quot|].
        apply Rnot_lt_le. intros C. apply quot_neg in C. lia.
    - unfold Zaway. destruct (Z.ltb_spec n 0) as [Hn|Hn].
      + rewrite Rlt_bool_true by (apply quot_neg; lia). apply zfloor_quot.
      + rewrite Rlt_bool_false; [apply zceil_quot|].
        apply Rnot_lt_le. intros C. apply quot_neg in C. lia.
  Qed.

  Lemma qmag_bound : n <> 0 ->
    (bpow radix2 (qmag n d - 1) <= Rabs (IZR n / IZR d) < bpow radix2 (qmag n d))%R.
  Proof.
    intros Hn. pose proof IZR_d_pos as Hd'.
    unfold qmag. set (a := Z.abs n). set (l := Z.log2 a - Z.log2 d).
    assert (Ha : 0 < a) by (unfold a; lia).
    pose proof (Z.log2_spec a Ha) as [A1 A2]. pose proof (Z.log2_spec d Hd) as [D1 D2].
    pose proof (Z.log2_nonneg a). pose proof (Z.log2_nonneg d).
    assert (Habs : (Rabs (IZR n / IZR d) = IZR a / IZR d)%R).
    { unfold Rdiv. rewrite Rabs_mult, (Rabs_pos_eq (/ IZR d)) by (left; apply Rinv_0_lt_compat; lra).
      rewrite <- abs_IZR. reflexivity. }
    rewrite Habs.
    (* transfer to products *)
    assert (T1 : forall k, (bpow radix2 k <= IZR a / IZR d)%R <-> (bpow radix2 k * IZR d <= IZR a)%R).
    { intros k; split; intros HH.
      - apply Rmult_le_compat_r with (r := IZR d) in HH; [|lra].
        unfold Rdiv in HH; rewrite Rmult_assoc, Rinv_l in HH by lra. lra.
      - apply Rmult_le_reg_r with (IZR d); [lra|]. unfold Rdiv; rewrite Rmult_assoc, Rinv_l by lra. lra. }
    assert (T2 : forall k, (IZR a / IZR d < bpow radix2 k)%R <-> (IZR a < bpow radix2 k * IZR d)%R).
    { intros k; split; intros HH.
      - apply Rmult_lt_compat_r with (r := IZR d) in HH; [|lra].
        unfold Rdiv in HH; rewrite Rmult_assoc, Rinv_l in HH by lra. lra.
      - apply Rmult_lt_reg_r with (IZR d); [lra|]. unfold Rdiv; rewrite Rmult_assoc, Rinv_l by lra. lra. }
    assert (Hlow : (bpow radix2 (l - 1) * IZR d <= IZR a)%R).
    { apply Rle_trans with (bpow radix2 (l - 1) * bpow radix2 (Z.log2 d + 1))%R.
      - apply Rmult_le_compat_l; [left; apply bpow2_pos|].
        rewrite <- IZR_pow2 by lia. apply IZR_le. unfold Z.succ in D2. lia.
      - rewrite <- bpow_plus. replace (l - 1 + (Z.log2 d + 1)) with (Z.log2 a) by (unfold l; lia).
        rewrite <- IZR_pow2 by lia. apply IZR_le. exact A1. }
    assert (Hhigh : (IZR a < bpow radix2 (l + 1) * IZR d)%R).
    { apply Rlt_le_trans with (bpow radix2 (l + 1) * bpow radix2 (Z.log2 d))%R.
      - rewrite <- bpow_plus. replace (l + 1 + Z.log2 d) with (Z.log2 a + 1) by (unfold l; lia).
        rewrite <- IZR_pow2 by lia. apply IZR_lt. unfold Z.succ in A2. lia.
      - apply Rmult_le_compat_l; [left; apply bpow2_pos|].
        rewrite <- IZR_pow2 by lia. apply IZR_le. exact D1. }
    assert (Hmid : (if 0 <=? l then d * 2 ^ l <=? a else d <=? a * 2 ^ (- l)) = true
                   <-> (bpow radix2 l * IZR d <= IZR a)%R).
    { destruct (Z.leb_spec 0 l) as [Hl|Hl]; rewrite Z.leb_le.
      - rewrite <- IZR_pow2 by lia. rewrite <- mult_IZR. split; intros HH.
        + apply IZR_le. lia.
        + apply le_IZR in HH. lia.
      - split; intros HH.
        + apply IZR_le in HH. rewrite mult_IZR, IZR_pow2 in HH by lia.
          apply Rmult_le_compat_l with (r := bpow radix2 l) in HH; [|left; apply bpow2_pos].
          replace (bpow radix2 l * (IZR a * bpow radix2 (- l)))%R with (IZR a * (bpow radix2 l * bpow radix2 (- l)))%R in HH by ring.
          rewrite <- bpow_plus in HH. replace (l + - l) with 0 in HH by lia. simpl in HH. lra.
        + apply le_IZR. rewrite mult_IZR, IZR_pow2 by lia.
          apply Rmult_le_compat_l with (r := bpow radix2 (- l)) in HH; [|left; apply bpow2_pos].
          rewrite <- Rmult_assoc, <- bpow_plus in HH. replace (- l + l) with 0 in HH by lia.
          simpl in HH. lra. }
    fold a. fold l.
    destruct (if 0 <=? l then d * 2 ^ l <=? a else d <=? a * 2 ^ (- l)) eqn:E.
    - replace (l + 1 - 1) with l by lia. split; [apply T1, Hmid; reflexivity|apply T2; exact Hhigh].
    - split; [apply T1; exact Hlow|]. apply T2. apply Rnot_le_lt. intros C.
      apply Hmid in C. discriminate.
  Qed.

  Lemma qmag_mag : n <> 0 -> mag radix2 (IZR n / IZR d) = qmag n d :> Z.
  Proof. intros Hn. apply mag_unique. apply qmag_bound; exact Hn. Qed.

End Div.

(** [round_at] is rounding to a multiple of [2^(s+e)]. *)
Lemma round_at_spec n d md e s : 0 < d ->
  arf2R (round_at md n d e s) =
  (IZR (rndZ md (IZR n / IZR d * bpow radix2 (- s))) * bpow radix2 (s + e))%R.
Proof.
  intros Hd. pose proof (IZR_d_pos d Hd) as Hd'.
  unfold round_at, arf2R. destruct (Z.leb_spec s 0) as [Hs|Hs]; cbn [am ae].
  - rewrite <- zround_spec by lia.
    replace (IZR (n * 2 ^ (- s)) / IZR d)%R with (IZR n / IZR d * bpow radix2 (- s))%R; [reflexivity|].
    rewrite mult_IZR, IZR_pow2 by lia. unfold Rdiv; ring.
  - pose proof (pow2_pos s ltac:(lia)).
    rewrite <- zround_spec by nia.
    replace (IZR n / IZR (d * 2 ^ s))%R with (IZR n / IZR d * bpow radix2 (- s))%R; [reflexivity|].
    rewrite mult_IZR, IZR_pow2, bpow_opp by lia. field. split; [|lra].
    apply Rgt_not_eq, bpow2_pos.
Qed.

Lemma bpow_neq0 e : bpow radix2 e <> 0%R.
Proof. apply Rgt_not_eq, bpow2_pos. Qed.

Lemma quot_scale_neq0 n d e : 0 < d -> n <> 0 -> (IZR n / IZR d * bpow radix2 e)%R <> 0%R.
Proof.
  intros Hd Hn. apply Rmult_integral_contrapositive. split; [|apply bpow_neq0].
  unfold Rdiv. apply Rmult_integral_contrapositive. split.
  - apply IZR_neq. exact Hn.
  - apply Rinv_neq_0_compat. apply IZR_neq. lia.
Qed.

Lemma mag_quot_scale n d e : 0 < d -> n <> 0 ->
  mag radix2 (IZR n / IZR d * bpow radix2 e) = qmag n d + e :> Z.
Proof.
  intros Hd Hn. rewrite mag_mult_bpow.
  - rewrite qmag_mag by assumption. reflexivity.
  - pose proof (quot_scale_neq0 n d 0 Hd Hn) as H. simpl in H. rewrite Rmult_1_r in H. exact H.
Qed.

Lemma round_at_fexp fexp n d md e s : 0 < d -> n <> 0 ->
  s + e = fexp (qmag n d + e) ->
  arf2R (round_at md n d e s) =
  round radix2 fexp (rndZ md) (IZR n / IZR d * bpow radix2 e)%R.
Proof.
  intros Hd Hn Hs. rewrite round_at_spec by exact Hd.
  unfold round, F2R, scaled_mantissa, cexp; simpl Fnum; simpl Fexp.
  rewrite mag_quot_scale, <- Hs by assumption.
  rewrite Rmult_assoc, <- bpow_plus.
  replace (e + - (s + e)) with (- s) by lia. reflexivity.
Qed.

Lemma round_q_spec md prec n d e : 0 < prec -> 0 < d ->
  arf2R (round_q md prec n d e) =
  round radix2 (FLX_exp prec) (rndZ md) (IZR n / IZR d * bpow radix2 e)%R.
Proof.
  intros Hp Hd. unfold round_q. destruct (Z.eqb_spec n 0) as [->|Hn].
  - unfold arf2R; simpl. unfold Rdiv. rewrite !Rmult_0_l. symmetry.
    apply round_0. apply rndZ_valid.
  - apply round_at_fexp; try assumption. unfold FLX_exp. lia.
Qed.

Lemma arf_round_spec md prec a : 0 < prec ->
  arf2R (arf_round md prec a) = round radix2 (FLX_exp prec) (rndZ md) (arf2R a).
Proof.
  intros Hp. unfold arf_round. rewrite round_q_spec by lia.
  unfold arf2R. f_equal. unfold Rdiv. rewrite Rinv_1. ring.
Qed.

Lemma arf_add_exact_spec a b : arf2R (arf_add_exact a b) = (arf2R a + arf2R b)%R.
Proof.
  unfold arf_add_exact, arf2R; cbn [am ae].
  set (e := Z.min (ae a) (ae b)).
  rewrite plus_IZR, !mult_IZR, !IZR_pow2 by lia.
  rewrite Rmult_plus_distr_r, !Rmult_assoc, <- !bpow_plus.
  replace (ae a - e + e) with (ae a) by lia. replace (ae b - e + e) with (ae b) by lia.
  reflexivity.
Qed.

Lemma arf_neg_spec a : arf2R (arf_neg a) = (- arf2R a)%R.
Proof. unfold arf_neg, arf2R; cbn [am ae]. rewrite opp_IZR. ring. Qed.

Lemma arf_sub_exact_spec a b : arf2R (arf_sub_exact a b) = (arf2R a - arf2R b)%R.
Proof. unfold arf_sub_exact. rewrite arf_add_exact_spec, arf_neg_spec. ring. Qed.

Lemma arf_mul_exact_spec a b : arf2R (arf_mul_exact a b) = (arf2R a * arf2R b)%R.
Proof. unfold arf_mul_exact, arf2R; cbn [am ae]. rewrite mult_IZR, bpow_plus. ring. Qed.

Lemma arf_abs_spec a : arf2R (arf_abs a) = Rabs (arf2R a).
Proof.
  unfold arf_abs, arf2R; cbn [am ae].
  rewrite Rabs_mult, abs_IZR. f_equal. symmetry. apply Rabs_pos_eq. left; apply bpow2_pos.
Qed.

Lemma arf_of_Z_spec n : arf2R (arf_of_Z n) = IZR n.
Proof. unfold arf_of_Z, arf2R; simpl. ring. Qed.

Lemma arf_zero_spec : arf2R arf_zero = 0%R.
Proof. unfold arf_zero, arf2R; simpl. ring. Qed.

Lemma arf_add_spec prec md a b : 0 < prec ->
  arf2R (arf_add prec md a b) = round radix2 (FLX_exp prec) (rndZ md) (arf2R a + arf2R b).
Proof. intros. unfold arf_add. rewrite arf_round_spec, arf_add_exact_spec by assumption. reflexivity. Qed.
Lemma arf_sub_spec prec md a b : 0 < prec ->
  arf2R (arf_sub prec md a b) = round radix2 (FLX_exp prec) (rndZ md) (arf2R a - arf2R b).
Proof. intros. unfold arf_sub. rewrite arf_round_spec, arf_sub_exact_spec by assumption. reflexivity. Qed.
Lemma arf_mul_spec prec md a b : 0 < prec ->
  arf2R (arf_mul prec md a b) = round radix2 (FLX_exp prec) (rndZ md) (arf2R a * arf2R b).
Proof. intros. unfold arf_mul. rewrite arf_round_spec, arf_mul_exact_spec by assumption. reflexivity. Qed.

Lemma arf2R_eq0 a : arf2R a = 0%R <-> am a = 0.
Proof.
  unfold arf2R. split; intros H.
  - apply Rmult_integral in H as [H|H]; [apply eq_IZR in H; exact H|].
    exfalso; exact (bpow_neq0 _ H).
  - rewrite H. ring.
Qed.

Lemma arf_div_spec prec md a b : 0 < prec ->
  match arf_div prec md a b with
  | None => arf2R b = 0%R
  | Some c => arf2R b <> 0%R /\
      arf2R c = round radix2 (FLX_exp prec) (rndZ md) (arf2R a / arf2R b)
  end.
Proof.
  intros Hp. unfold arf_div. destruct (Z.eqb_spec (am b) 0) as [E|E].
  - apply arf2R_eq0; exact E.
  - split; [rewrite arf2R_eq0; exact E|].
    rewrite round_q_spec by lia. f_equal. unfold arf2R.
    assert (Hb : IZR (am b) <> 0%R) by (apply IZR_neq; exact E).
    unfold Zminus. rewrite bpow_plus, bpow_opp.
    assert (Hs : (IZR (Z.sgn (am b) * am a) / IZR (Z.abs (am b)) = IZR (am a) / IZR (am b))%R).
    { rewrite mult_IZR. destruct (Z.sgn_spec (am b)) as [[H1 ->]|[[H1 ->]|[H1 ->]]].
      - rewrite Z.abs_eq by lia. field. exact Hb.
      - lia.
      - rewrite Z.abs_neq by lia. rewrite (opp_IZR (am b)). unfold Rdiv. rewrite Rinv_opp. change (- (1))%Z with (-1)%Z; ring. }
    rewrite Hs. field. split; [apply bpow_neq0|exact Hb].
Qed.

Lemma arf_shl_spec a k : arf2R (arf_shl a k) = (arf2R a * bpow radix2 k)%R.
Proof. unfold arf_shl, arf2R; cbn [am ae]. rewrite bpow_plus. ring. Qed.

Lemma arf_cmp_spec a b :
  match arf_cmp a b with
  | Lt => (arf2R a < arf2R b)%R
  | Eq => arf2R a = arf2R b
  | Gt => (arf2R b < arf2R a)%R
  end.
Proof.
  unfold arf_cmp. set (e := Z.min (ae a) (ae b)).
  assert (V : forall x, e <= ae x -> arf2R x = (IZR (am x * 2 ^ (ae x - e)) * bpow radix2 e)%R).
  { intros x Hx. unfold arf2R. rewrite mult_IZR, IZR_pow2, Rmult_assoc, <- bpow_plus by lia.
    replace (ae x - e + e) with (ae x) by lia. reflexivity. }
  rewrite (V a), (V b) by lia. pose proof (bpow2_pos e).
  destruct (Z.compare_spec (am a * 2 ^ (ae a - e)) (am b * 2 ^ (ae b - e))) as [E|L|G].
  - rewrite E. reflexivity.
  - apply Rmult_lt_compat_r; [assumption|apply IZR_lt; exact L].
  - apply Rmult_lt_compat_r; [assumption|apply IZR_lt; exact G].
Qed.

Lemma arf_ltb_spec a b : arf_ltb a b = true <-> (arf2R a < arf2R b)%R.
Proof. unfold arf_ltb. pose proof (arf_cmp_spec a b). destruct (arf_cmp a b); split; intros; try discriminate; try reflexivity; lra. Qed.
Lemma arf_leb_spec a b : arf_leb a b = true <-> (arf2R a <= arf2R b)%R.
Proof. unfold arf_leb. pose proof (arf_cmp_spec a b). destruct (arf_cmp a b); split; intros; try discriminate; try reflexivity; lra. Qed.
Lemma arf_eqb_spec a b : arf_eqb a b = true <-> arf2R a = arf2R b.
Proof. unfold arf_eqb. pose proof (arf_cmp_spec a b). destruct (arf_cmp a b); split; intros; try discriminate; try reflexivity; lra. Qed.
Lemma arf_ltb_false a b : arf_ltb a b = false <-> (arf2R b <= arf2R a)%R.
Proof. unfold arf_ltb. pose proof (arf_cmp_spec a b). destruct (arf_cmp a b); split; intros; try discriminate; try reflexivity; lra. Qed.
Lemma arf_leb_false a b : arf_leb a b = false <-> (arf2R b < arf2R a)%R.
Proof. unfold arf_leb. pose proof (arf_cmp_spec a b). destruct (arf_cmp a b); split; intros; try discriminate; try reflexivity; lra. Qed.

Lemma arf_floor_spec a : arf_floor a = Zfloor (arf2R a).
Proof.
  unfold arf_floor, arf2R. destruct (Z.leb_spec 0 (ae a)).
  - rewrite <- IZR_pow2, <- mult_IZR, Zfloor_IZR by assumption. reflexivity.
  - replace (bpow radix2 (ae a)) with (/ IZR (2 ^ (- ae a)))%R.
    + symmetry. apply zfloor_quot. apply pow2_pos. lia.
    + rewrite IZR_pow2, bpow_opp by lia. rewrite Rinv_inv. reflexivity.
Qed.

Lemma arf_ceil_spec a : arf_ceil a = Zceil (arf2R a).
Proof. unfold arf_ceil, Zceil. rewrite arf_floor_spec, arf_neg_spec. reflexivity. Qed.

Lemma pos_norm_spec p e : let '(q, f) := pos_norm p e in
  Z.odd (Zpos q) = true /\ e <= f /\ Zpos p = Zpos q * 2 ^ (f - e).
Proof.
  revert e. induction p as [p IH|p IH|]; intros e; cbn [pos_norm].
  - split; [reflexivity|]. split; [lia|]. rewrite Z.sub_diag. change (2 ^ 0) with 1. lia.
  - specialize (IH (e + 1)). destruct (pos_norm p (e + 1)) as [q f].
    destruct IH as (H1 & H2 & H3). split; [exact H1|]. split; [lia|].
    replace (f - e) with (f - (e + 1) + 1) by lia. rewrite Z.pow_add_r by lia.
    change (Z.pos p~0) with (2 * Z.pos p). rewrite H3. change (2 ^ 1) with 2. ring.
  - split; [reflexivity|]. split; [lia|]. rewrite Z.sub_diag. reflexivity.
Qed.

Lemma scale_pow2 m k e f : 0 <= k -> f = e + k -> (IZR (m * 2 ^ k) * bpow radix2 e = IZR m * bpow radix2 f)%R.
Proof. intros Hk ->. rewrite mult_IZR, IZR_pow2, bpow_plus by exact Hk. ring. Qed.

Lemma arf_norm_spec a :
  arf2R (arf_norm a) = arf2R a /\
  (am a <> 0 -> Z.odd (am (arf_norm a)) = true) /\ (am a = 0 -> am (arf_norm a) = 0).
Proof.
  destruct a as [m e]. unfold arf_norm. cbn [am ae]. destruct m as [|p|p].
  - split; [unfold arf2R; simpl; ring|]. split; [intros C; congruence|reflexivity].
  - pose proof (pos_norm_spec p e) as H. destruct (pos_norm p e) as [q f]. destruct H as (H1 & H2 & H3).
    split; [|split; [intros _; exact H1|discriminate]].
    unfold arf2R; cbn [am ae]. rewrite H3. symmetry. apply scale_pow2; lia.
  - pose proof (pos_norm_spec p e) as H. destruct (pos_norm p e) as [q f]. destruct H as (H1 & H2 & H3).
    split; [|split; [intros _; exact H1|discriminate]].
    unfold arf2R; cbn [am ae].
    replace (Zneg p) with (Zneg q * 2 ^ (f - e)) by (change (Zneg p) with (- Zpos p); rewrite H3; change (Zneg q) with (- Zpos q); ring).
    symmetry. apply scale_pow2; lia.
Qed.

Lemma arf_mantissa_exponent a :
  arf2R a = (IZR (arf_mantissa a) * bpow radix2 (arf_exponent a))%R.
Proof. symmetry. apply arf_norm_spec. Qed.

Lemma arf_expo_spec a : am a <> 0 ->
  (bpow radix2 (arf_expo a - 1) <= Rabs (arf2R a) < bpow radix2 (arf_expo a))%R.
Proof.
  intros Ha. unfold arf_expo. destruct (Z.eqb_spec (am a) 0) as [|_]; [contradiction|].
  pose proof (Z.log2_spec (Z.abs (am a)) ltac:(lia)) as [H1 H2].
  pose proof (Z.log2_nonneg (Z.abs (am a))).
  rewrite <- arf_abs_spec. unfold arf_abs, arf2R; cbn [am ae].
  pose proof (bpow2_pos (ae a)).
  replace (Z.log2 (Z.abs (am a)) + 1 + ae a - 1) with (Z.log2 (Z.abs (am a)) + ae a) by lia.
  rewrite !bpow_plus with (e2 := ae a). rewrite <- !IZR_pow2 by lia. split.
  - apply Rmult_le_compat_r; [lra|]. apply IZR_le; exact H1.
  - apply Rmult_lt_compat_r; [lra|]. rewrite <- IZR_pow2 by lia; apply IZR_lt; exact H2.
Qed.

Lemma arf_expo_mag a : am a <> 0 -> arf_expo a = mag radix2 (arf2R a).
Proof. intros Ha. symmetry. apply mag_unique. apply arf_expo_spec; exact Ha. Qed.

Lemma arf_logb_spec a : arf2R a <> 0%R ->
  (bpow radix2 (arf_logb a) <= Rabs (arf2R a) < bpow radix2 (arf_logb a + 1))%R.
Proof.
  intros Ha. assert (am a <> 0) by (intros C; apply Ha, arf2R_eq0, C).
  unfold arf_logb. replace (arf_expo a - 1 + 1) with (arf_expo a) by lia.
  apply arf_expo_spec; assumption.
Qed.

Lemma arf_to_double_spec a :
  arf2R (arf_to_double a) = round radix2 (FLT_exp (-1074) 53) ZnearestE (arf2R a).
Proof.
  unfold arf_to_double. destruct (Z.eqb_spec (am a) 0) as [E|E].
  - rewrite arf_zero_spec. symmetry. replace (arf2R a) with 0%R by (symmetry; apply arf2R_eq0; exact E).
    apply round_0. auto with typeclass_instances.
  - rewrite round_at_fexp with (fexp := FLT_exp (-1074) 53); try lia.
    + unfold arf2R. simpl rndZ. f_equal. unfold Rdiv. rewrite Rinv_1. ring.
    + unfold FLT_exp. lia.
Qed.

Lemma arf_mantissa_odd a :
  arf2R a = (IZR (arf_mantissa a) * bpow radix2 (arf_exponent a))%R /\
  (arf2R a <> 0%R -> Z.odd (arf_mantissa a) = true) /\ (arf2R a = 0%R -> arf_mantissa a = 0).
Proof.
  split; [apply arf_mantissa_exponent|]. destruct (arf_norm_spec a) as (_ & H1 & H2).
  split; intros H; [apply H1|apply H2]; rewrite <- arf2R_eq0; exact H.
Qed.

Lemma arf_floor_bounds a : (IZR (arf_floor a) <= arf2R a < IZR (arf_floor a) + 1)%R.
Proof. rewrite arf_floor_spec. split; [apply Zfloor_lb|apply Zfloor_ub]. Qed.

Lemma arf_ceil_bounds a : (IZR (arf_ceil a) - 1 < arf2R a <= IZR (arf_ceil a))%R.
Proof.
  rewrite arf_ceil_spec. split; [|apply Zceil_ub].
  pose proof (Zceil_lb (arf2R a)). lra.
Qed.
