(** Accuracy of constrained random numbers and of products. *)
From Coq Require Import ZArith QArith Bool List Reals Lia Lra Psatz Qreals.
From Flocq Require Import Core.
From Verif Require Import Arf Arb SpecArf ArfProofs ArbProofs Real SpecReal RealProofs.
Import ListNotations.
Open Scope R_scope.

Notation rndN p := (round radix2 (FLX_exp p) ZnearestE).

Lemma FLX_valid p : (0 < p)%Z -> Valid_exp (FLX_exp p).
Proof. intros H. apply FLX_exp_valid. exact H. Qed.

Lemma rndN_idem p x : (0 < p)%Z -> rndN p (rndN p x) = rndN p x.
Proof.
  intros Hp. pose proof (FLX_valid p Hp). apply round_generic; auto with typeclass_instances.
  apply generic_format_round; auto with typeclass_instances.
Qed.

Lemma rndN_half_ulp p x : (0 < p)%Z -> x <> 0 -> Rabs (x - rndN p x) <= bpow radix2 (mag radix2 x - 1 - p).
Proof.
  intros Hp Hx. pose proof (FLX_valid p Hp).
  rewrite Rabs_minus_sym.
  eapply Rle_trans; [apply error_le_half_ulp; auto with typeclass_instances|].
  rewrite ulp_neq_0 by exact Hx. unfold cexp, FLX_exp.
  change (/ 2) with (bpow radix2 (-1)). rewrite <- bpow_plus. apply bpow_le. lia.
Qed.

Lemma rndN_neq0 p x : (0 < p)%Z -> x <> 0 -> rndN p x <> 0.
Proof. intros. apply round_FLX_neq0; auto with typeclass_instances. Qed.

Lemma rndN_mag p x : (0 < p)%Z -> x <> 0 -> (mag radix2 x <= mag radix2 (rndN p x))%Z.
Proof.
  intros Hp Hx. pose proof (FLX_valid p Hp).
  apply mag_round_ge; auto with typeclass_instances. apply rndN_neq0; assumption.
Qed.

Lemma accurate_intro p S a x : (0 <= p)%Z -> S <> 0 -> arf2R a = rndN (p + 1) S ->
  Rabs (x - S) <= bpow radix2 (mag radix2 S - 2 - p) -> accurate p a x.
Proof.
  intros Hp HS Ha Hx. unfold accurate. rewrite Ha.
  pose proof (rndN_half_ulp (p + 1) S ltac:(lia) HS) as H1.
  pose proof (rndN_mag (p + 1) S ltac:(lia) HS) as H2.
  replace (x - rndN (p + 1) S) with ((x - S) + (S - rndN (p + 1) S)) by ring.
  eapply Rle_trans; [apply Rabs_triang|].
  apply Rle_trans with (bpow radix2 (mag radix2 S - 1 - p)).
  - replace (mag radix2 S - 1 - p)%Z with (1 + (mag radix2 S - 2 - p))%Z by lia.
    replace (mag radix2 S - 1 - (p + 1))%Z with (mag radix2 S - 2 - p)%Z in H1 by lia.
    rewrite (bpow_plus radix2 1). change (bpow radix2 1) with 2. lra.
  - apply bpow_le. lia.
Qed.

Lemma accurate_exact p S a x : arf2R a = S -> Rabs (x - S) <= bpow radix2 (mag radix2 S - 1 - p) -> accurate p a x.
Proof. intros Ha Hx. unfold accurate. rewrite Ha. exact Hx. Qed.

(** The odd mantissa. *)
Lemma arf_bits_spec a : am a <> 0%Z ->
  let M := Z.abs (arf_mantissa a) in
  Z.odd M = true /\ (2 ^ (arf_bits a - 1) <= M < 2 ^ arf_bits a)%Z /\ (1 <= arf_bits a)%Z /\
  Rabs (arf2R a) = IZR M * bpow radix2 (arf_exponent a).
Proof.
  intros Ha M. pose proof (arf_norm_spec a) as (V & O & _). specialize (O Ha).
  assert (HM : Z.odd M = true).
  { unfold M, arf_mantissa. rewrite <- Z.bit0_odd in *. rewrite <- O. destruct (am (arf_norm a)) as [|q|q]; reflexivity. }
  assert (HM0 : (0 < M)%Z). { assert (M <> 0%Z) by (intros C; rewrite C in HM; discriminate). unfold M in *. lia. }
  unfold arf_bits. destruct (Z.eqb_spec (am a) 0); [contradiction|]. fold M.
  pose proof (Z.log2_spec M HM0) as [L1 L2]. pose proof (Z.log2_nonneg M).
  split; [exact HM|]. split; [|split; [lia|]].
  - replace (Z.log2 M + 1 - 1)%Z with (Z.log2 M) by lia. unfold Z.succ in L2. lia.
  - rewrite (arf_mantissa_exponent a), Rabs_mult. unfold M. rewrite abs_IZR.
    f_equal. apply Rabs_pos_eq. left; apply bpow2_pos.
Qed.

Lemma odd_exponent_le a m e : am a <> 0%Z -> arf2R a = IZR m * bpow radix2 e -> (e <= arf_exponent a)%Z.
Proof.
  intros Ha Hm. destruct (Z.le_gt_cases e (arf_exponent a)) as [H|H]; [exact H|exfalso].
  pose proof (arf_norm_spec a) as (_ & O & _). specialize (O Ha).
  rewrite (arf_mantissa_exponent a) in Hm.
  set (E := arf_exponent a) in *.
  assert (arf_mantissa a = m * 2 ^ (e - E))%Z as HM.
  { apply eq_IZR. rewrite mult_IZR, IZR_pow2 by lia.
    apply Rmult_eq_reg_r with (bpow radix2 E); [|apply bpow_neq0].
    rewrite Hm, Rmult_assoc, <- bpow_plus. f_equal. f_equal. lia. }
  unfold arf_mantissa in HM. rewrite HM in O.
  replace (e - E)%Z with (1 + (e - E - 1))%Z in O by lia. rewrite Z.pow_add_r in O by lia.
  change (2 ^ 1)%Z with 2%Z in O. rewrite Z.odd_mul, Z.odd_mul in O. simpl in O. rewrite andb_false_r in O. discriminate.
Qed.

Lemma mag_ge_lb x k : bpow radix2 k <= Rabs x -> (k + 1 <= mag radix2 x)%Z.
Proof. intros H. pose proof (mag_ge_bpow radix2 x (k + 1)). replace (k + 1 - 1)%Z with k in H0 by lia. auto. Qed.

(** Integer multiples of [2^k] below [2^(k+p)] are exactly representable. *)
Lemma FLX_multiple p n k : (0 < p)%Z -> (Z.abs n <= 2 ^ p)%Z -> rndN p (IZR n * bpow radix2 k) = IZR n * bpow radix2 k.
Proof.
  intros Hp Hn. pose proof (FLX_valid p Hp).
  apply round_generic; auto with typeclass_instances.
  destruct (Z.eq_dec (Z.abs n) (2 ^ p)) as [E|E].
  - assert (H1 : generic_format radix2 (FLX_exp p) (bpow radix2 (p + k))).
    { apply generic_format_bpow. unfold FLX_exp. lia. }
    replace (IZR n * bpow radix2 k) with (if Z.ltb n 0 then - bpow radix2 (p + k) else bpow radix2 (p + k)).
    + destruct (Z.ltb_spec n 0); [apply generic_format_opp|]; exact H1.
    + rewrite bpow_plus, <- (IZR_pow2 p) by lia. rewrite <- E. destruct (Z.ltb_spec n 0).
      * rewrite Z.abs_neq, opp_IZR by lia. ring.
      * rewrite Z.abs_eq by lia. reflexivity.
  - apply generic_format_FLX. exists (Float radix2 n k); [unfold F2R; reflexivity|]. simpl Fnum.
    change (radix2 ^ p)%Z with (2 ^ p)%Z. lia.
Qed.

Section Constrained.
  Variable rng : Z -> nat -> bool.
  Variables (initial : arf) (e seed : Z).
  Hypothesis Hok : atom_ok rng (AConstr initial e seed).
  Variable y : R.
  Hypothesis Hy : stream_value (rng seed) y.
  Let I := arf2R initial.
  Let x := I + y * bpow radix2 (e - 1).

  Lemma constr_returns prec : exists fuel0 a, forall fuel, (fuel0 <= fuel)%nat ->
    arf_constr rng fuel initial e seed prec = Some a.
  Proof.
    destruct Hok as [Hs _]. destruct (first_one _ Hs) as (z & H1 & H0).
    unfold arf_constr. fold (clamp prec).
    destruct (0 <? clamp prec + 1 - arf_bits initial)%Z.
    - set (q := (clamp prec + 1 - arf_bits initial - 1)%Z).
      exists (z + Z.to_nat (clamp q + 1))%nat. eexists. intros fuel Hf.
      rewrite (arf_random_eq rng seed z q fuel H1 H0 Hf). simpl. reflexivity.
    - exists 0%nat. eexists. reflexivity.
  Qed.

  Lemma constr_accurate fuel prec a :
    arf_constr rng fuel initial e seed prec = Some a ->
    accurate (clamp prec) a x /\ arf2R a <> 0.
  Proof.
    destruct Hok as [Hs [m Hm]]. destruct (first_one _ Hs) as (z & H1 & H0).
    pose proof (clamp_nonneg prec) as Hp. set (p := clamp prec) in *.
    unfold arf_constr. fold (clamp prec). fold p.
    pose proof (stream_value_range _ _ Hy) as Hy01.
    pose proof (bpow2_pos (e - 1)) as Hbe.
    destruct (Z.ltb_spec 0 (p + 1 - arf_bits initial)) as [Hmiss|Hmiss].
    - (* digits of inner are needed *)
      set (miss := (p + 1 - arf_bits initial)%Z) in *.
      destruct (arf_random rng fuel seed (miss - 1)) as [add|] eqn:Eadd; [|discriminate].
      apply (arf_random_det rng seed z) in Eadd; [|assumption|assumption].
      cbn [option_map]. intros [= <-].
      assert (Hc : clamp (miss - 1) = (miss - 1)%Z) by (apply clamp_nn; lia).
      pose proof (rc_error (rng seed) z (miss - 1) y Hy) as Herr.
      pose proof (rc_pos (rng seed) z (miss - 1) H1 H0) as Hpos.
      pose proof (rc_range (rng seed) z (miss - 1) H1 H0) as Hrange.
      pose proof (rc_mag (rng seed) z (miss - 1) H1 H0) as Hmag.
      rewrite <- Eadd in Herr, Hpos, Hrange, Hmag. rewrite Hc in Herr, Hrange.
      replace (Z.of_nat z + (miss - 1 + 1))%Z with (Z.of_nat z + miss)%Z in Herr by lia.
      set (t := arf2R add * bpow radix2 (e - 1)).
      set (S := I + t).
      assert (Hval : arf2R (arf_round NEAR (p + 1) (arf_add (p + 1) NEAR initial (arf_shl add (e - 1)))) = rndN (p + 1) S).
      { rewrite arf_round_spec, arf_add_spec, arf_shl_spec by lia. simpl rndZ. fold I. fold t. fold S.
        apply rndN_idem. lia. }
      assert (HxS : Rabs (x - S) <= bpow radix2 (e - 1 - Z.of_nat z - miss)).
      { unfold x, S, t. replace (I + y * bpow radix2 (e - 1) - (I + arf2R add * bpow radix2 (e - 1)))
          with ((y - arf2R add) * bpow radix2 (e - 1)) by ring.
        rewrite Rabs_mult, (Rabs_pos_eq (bpow radix2 (e - 1))) by lra.
        replace (e - 1 - Z.of_nat z - miss)%Z with (- (Z.of_nat z + miss) + (e - 1))%Z by lia.
        rewrite bpow_plus. apply Rmult_le_compat_r; [lra|]. apply Rabs_le.
        pose proof (bpow2_pos (- (Z.of_nat z + miss))). lra. }
      assert (Ht : 0 < t <= bpow radix2 (e - 1)).
      { unfold t. split; [apply Rmult_lt_0_compat; assumption|].
        apply Rle_trans with (1 * bpow radix2 (e - 1)); [apply Rmult_le_compat_r; lra|lra]. }
      destruct (Z.eq_dec (am initial) 0) as [Hz|Hnz].
      + (* initial = 0 *)
        assert (HI : I = 0) by (apply arf2R_eq0; exact Hz).
        assert (Hb : arf_bits initial = 0%Z) by (unfold arf_bits; rewrite Hz; reflexivity).
        assert (HS : S = t) by (unfold S; rewrite HI; ring).
        assert (Hmiss' : miss = (p + 1)%Z) by lia.
        assert (Hrep : rndN (p + 1) S = S).
        { rewrite HS. unfold t, arf2R. rewrite Rmult_assoc, <- bpow_plus.
          apply FLX_multiple; [lia|]. rewrite Z.abs_eq by (pose proof (pow2_pos (miss - 1) ltac:(lia)); lia).
          replace (miss - 1 + 1)%Z with (p + 1)%Z in Hrange by lia. lia. }
        split; [|rewrite Hval, Hrep, HS; lra].
        apply accurate_exact with (S := S); [rewrite Hval; exact Hrep|].
        eapply Rle_trans; [exact HxS|]. apply bpow_le. rewrite HS. unfold t.
        rewrite mag_mult_bpow by lra. rewrite Hmag. lia.
      + pose proof (arf_bits_spec initial Hnz) as (Hodd & Hr & Hb1 & HabsI).
        pose proof (odd_exponent_le initial m e Hnz Hm) as HeE.
        set (E := arf_exponent initial) in *. set (D := arf_bits initial) in *.
        set (M := Z.abs (arf_mantissa initial)) in *. fold I in HabsI.
        assert (HIlow : bpow radix2 (E + D - 1) <= Rabs I).
        { rewrite HabsI. replace (E + D - 1)%Z with ((D - 1) + E)%Z by lia. rewrite bpow_plus.
          apply Rmult_le_compat_r; [left; apply bpow2_pos|].
          rewrite <- IZR_pow2 by lia. apply IZR_le. lia. }
        assert (HtE : t <= bpow radix2 (E - 1)).
        { eapply Rle_trans; [apply Ht|]. apply bpow_le. lia. }
        destruct (Rle_or_lt 0 I) as [HIp|HIn].
        * (* positive *)
          assert (HSl : bpow radix2 (E + D - 1) <= Rabs S).
          { rewrite Rabs_pos_eq in HIlow by exact HIp. rewrite Rabs_pos_eq; unfold S; lra. }
          assert (HS0 : S <> 0).
          { intros C. rewrite C, Rabs_R0 in HSl. pose proof (bpow2_pos (E + D - 1)). lra. }
          split; [|rewrite Hval; apply rndN_neq0; [lia|exact HS0]].
          apply accurate_intro with (S := S); try assumption; try lia.
          eapply Rle_trans; [exact HxS|]. apply bpow_le. apply mag_ge_lb in HSl. lia.
        * (* negative *)
          assert (HabsS : Rabs S = Rabs I - t).
          { assert (E1 : bpow radix2 (E - 1) < Rabs I).
            { eapply Rlt_le_trans; [|exact HIlow]. apply bpow_lt. lia. }
            rewrite (Rabs_left I) in * by exact HIn. rewrite Rabs_left; unfold S; lra. }
          destruct (Z.eq_dec M 1) as [HM1|HM1].
          -- assert (HD : D = 1%Z).
             { destruct (Z.le_gt_cases D 1); [lia|]. exfalso.
               assert (2 ^ 1 <= 2 ^ (D - 1))%Z by (apply Z.pow_le_mono_r; lia).
               change (2 ^ 1)%Z with 2%Z in *. lia. }
             assert (HabsI1 : Rabs I = bpow radix2 E) by (rewrite HabsI, HM1; ring).
             assert (HSl : bpow radix2 (E - 1) <= Rabs S).
             { rewrite HabsS, HabsI1. replace E with (1 + (E - 1))%Z at 2 by lia. rewrite (bpow_plus radix2 1).
               change (bpow radix2 1) with 2. lra. }
             assert (HS0 : S <> 0).
             { intros C. rewrite C, Rabs_R0 in HSl. pose proof (bpow2_pos (E - 1)). lra. }
             split; [|rewrite Hval; apply rndN_neq0; [lia|exact HS0]].
             destruct (Z.le_gt_cases (e - Z.of_nat z) (E - 1)) as [Hez|Hez].
             ++ apply accurate_intro with (S := S); try assumption; try lia.
                eapply Rle_trans; [exact HxS|]. apply bpow_le. apply mag_ge_lb in HSl. lia.
             ++ assert (Hz0 : z = 0%nat /\ e = E) by lia. destruct Hz0 as [-> He].
                assert (HSm : S = IZR (- 2 ^ (p + 1) + am add) * bpow radix2 (E - 1 - p)).
                { unfold S. assert (HI : I = - bpow radix2 E) by (rewrite <- HabsI1, Rabs_left; lra).
                  rewrite HI. unfold t, arf2R. rewrite Eadd at 2. unfold random_closed; cbn [am ae].
                  rewrite Hc. rewrite plus_IZR, opp_IZR, IZR_pow2 by lia.
                  rewrite Rmult_plus_distr_r, Rmult_assoc, <- bpow_plus.
                  replace (- bpow radix2 (p + 1) * bpow radix2 (E - 1 - p)) with (- bpow radix2 E).
                  - f_equal. f_equal. f_equal. simpl Z.of_nat. lia.
                  - rewrite Ropp_mult_distr_l_reverse, <- bpow_plus. f_equal. f_equal. lia. }
                assert (Hrep : rndN (p + 1) S = S).
                { rewrite HSm. apply FLX_multiple; [lia|].
                  assert (0 < 2 ^ (miss - 1))%Z by (apply pow2_pos; lia).
                  assert (2 ^ (miss - 1 + 1) <= 2 ^ (p + 1))%Z by (apply Z.pow_le_mono_r; lia).
                  lia. }
                apply accurate_exact with (S := S); [rewrite Hval; exact Hrep|].
                eapply Rle_trans; [exact HxS|]. apply bpow_le. apply mag_ge_lb in HSl. simpl Z.of_nat. lia.
          -- (* M >= 3 *)
             assert (HMs : (2 ^ (D - 1) + 1 <= M)%Z).
             { destruct (Z.eq_dec M (2 ^ (D - 1))) as [C|C]; [|lia]. exfalso.
               destruct (Z.eq_dec D 1) as [D1|D1]; [rewrite D1 in C; apply HM1; exact C|].
               rewrite C in Hodd. replace (D - 1)%Z with (1 + (D - 2))%Z in Hodd by lia.
               rewrite Z.pow_add_r, Z.odd_mul in Hodd by lia. discriminate. }
             assert (HSl : bpow radix2 (E + D - 1) <= Rabs S).
             { rewrite HabsS, HabsI. apply IZR_le in HMs. rewrite plus_IZR, IZR_pow2 in HMs by lia.
               apply Rmult_le_compat_r with (r := bpow radix2 E) in HMs; [|left; apply bpow2_pos].
               rewrite Rmult_plus_distr_r, <- bpow_plus in HMs.
               replace (E + D - 1)%Z with (D - 1 + E)%Z by lia.
               assert (bpow radix2 (E - 1) <= bpow radix2 E) by (apply bpow_le; lia). lra. }
             assert (HS0 : S <> 0).
             { intros C. rewrite C, Rabs_R0 in HSl. pose proof (bpow2_pos (E + D - 1)). lra. }
             split; [|rewrite Hval; apply rndN_neq0; [lia|exact HS0]].
             apply accurate_intro with (S := S); try assumption; try lia.
             eapply Rle_trans; [exact HxS|]. apply bpow_le. apply mag_ge_lb in HSl. lia.
    - (* initial has enough digits *)
      cbn [option_map]. intros [= <-].
      assert (Hnz : am initial <> 0%Z).
      { intros C. unfold arf_bits in Hmiss. rewrite C in Hmiss. simpl in Hmiss. lia. }
      pose proof (arf_bits_spec initial Hnz) as (Hodd & Hr & Hb1 & HabsI).
      pose proof (odd_exponent_le initial m e Hnz Hm) as HeE.
      set (E := arf_exponent initial) in *. set (D := arf_bits initial) in *.
      set (M := Z.abs (arf_mantissa initial)) in *. fold I in HabsI.
      assert (HIlow : bpow radix2 (E + D - 1) <= Rabs I).
      { rewrite HabsI. replace (E + D - 1)%Z with ((D - 1) + E)%Z by lia. rewrite bpow_plus.
        apply Rmult_le_compat_r; [left; apply bpow2_pos|].
        rewrite <- IZR_pow2 by lia. apply IZR_le. lia. }
      assert (HI0 : I <> 0).
      { intros C. rewrite C, Rabs_R0 in HIlow. pose proof (bpow2_pos (E + D - 1)). lra. }
      assert (Hval : arf2R (arf_round NEAR (p + 1) initial) = rndN (p + 1) I)
        by (rewrite arf_round_spec by lia; reflexivity).
      assert (HxI : Rabs (x - I) <= bpow radix2 (E - 1)).
      { unfold x. replace (I + y * bpow radix2 (e - 1) - I) with (y * bpow radix2 (e - 1)) by ring.
        rewrite Rabs_mult, (Rabs_pos_eq y), (Rabs_pos_eq (bpow radix2 (e - 1))) by lra.
        apply Rle_trans with (1 * bpow radix2 (e - 1)); [apply Rmult_le_compat_r; lra|].
        rewrite Rmult_1_l. apply bpow_le. lia. }
      apply mag_ge_lb in HIlow.
      split; [|rewrite Hval; apply rndN_neq0; [lia|exact HI0]].
      apply accurate_intro with (S := I); try assumption; try lia.
      eapply Rle_trans; [exact HxI|]. apply bpow_le. lia.
  Qed.
End Constrained.
