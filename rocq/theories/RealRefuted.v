(** Concrete counterexamples (found by running the model, machine checked). *)
From Coq Require Import ZArith QArith Bool List Reals Lia Lra Psatz Qreals.
From Flocq Require Import Core.
From Verif Require Import Arf Arb SpecArf ArfProofs ArbProofs Real SpecReal RealProofs RealProofs2 RealProofs3 RealProofs4 RealProofs5 Fast48.
Import ListNotations.
Open Scope R_scope.

Lemma stream_bounds s y n : stream_value s y ->
  IZR (prefix s n) / IZR (2 ^ Z.of_nat n) <= y <= (IZR (prefix s n) + 1) / IZR (2 ^ Z.of_nat n).
Proof.
  intros H. specialize (H n). rewrite <- IZR_pow2 in H by lia.
  assert (P : 0 < IZR (2 ^ Z.of_nat n)) by (apply IZR_lt; apply pow2_pos; lia).
  split; apply Rmult_le_reg_r with (IZR (2 ^ Z.of_nat n)); try exact P; unfold Rdiv;
    rewrite Rmult_assoc, Rinv_l, Rmult_1_r by lra; lra.
Qed.

Ltac r48bound H n := let E := fresh in
  pose proof (stream_bounds _ _ n H) as E;
  match type of E with context [prefix ?s ?k] =>
    let r := eval vm_compute in (prefix s k) in
    replace (prefix s k) with r in E by (c48) end;
  match type of E with context [(2 ^ Z.of_nat ?k)%Z] =>
    let r := eval vm_compute in (2 ^ Z.of_nat k)%Z in
    replace (2 ^ Z.of_nat k)%Z with r in E by (vm_compute; reflexivity) end.

(** C06: products can miss the accuracy. *)
Lemma prod_accuracy_counterexample v :
  num_value rand48 (RProd [(ARandom 615, 1%nat); (ARandom 2844, 1%nat)]) v ->
  exists a, num_arf rand48 100 (RProd [(ARandom 615, 1%nat); (ARandom 2844, 1%nat)]) 4 = Some a /\ ~ accurate 4 a v.
Proof.
  intros (y & z & Hy & (z2 & w & Hz & Hw & ->) & ->). simpl in Hy, Hz, Hw. subst w. simpl pow.
  exists (mkArf 28 (-6)). split; [c48|].
  unfold accurate. intros C.
  assert (M : mag radix2 (arf2R (mkArf 28 (-6))) = (-1)%Z :> Z).
  { rewrite <- arf_expo_mag by (cbn; lia). reflexivity. }
  rewrite M in C. r48bound Hy 24%nat. r48bound Hz 24%nat.
  unfold arf2R in C. cbn [am ae] in C. simpl bpow in C.
  unfold Rabs in C. destruct (Rcase_abs _) in C; nra.
Qed.

(** C07: the ball does not contain the number. *)
Lemma arb_rational_counterexample :
  exists b, num_arb rand48 0 (RRat (1 # 3)) 3 = Some b /\ ~ contains b (1 / 3).
Proof.
  eexists. split; [c48|]. unfold contains, arf2R. cbn [rad mid am ae]. simpl bpow.
  intros C. unfold Rabs in C. destruct (Rcase_abs _) in C; lra.
Qed.

Lemma arb_random_counterexample v : num_value rand48 (RAtom (ARandom 1337)) v ->
  exists b, num_arb rand48 100 (RAtom (ARandom 1337)) 64 = Some b /\ ~ contains b v.
Proof.
  intros H. simpl in H. eexists. split; [c48|]. unfold contains, arf2R. cbn [rad mid am ae]. simpl bpow.
  r48bound H 80%nat. intros C. unfold Rabs in C. destruct (Rcase_abs _) in C; lra.
Qed.

(** C08: cmp answers 0 for a number that is not in the ball. *)
Lemma cmp_zero_counterexample :
  num_cmp rand48 0 (RRat (1 # 5)) (arb_of_arf (mkArf 3 (-4))) = Some 0%Z /\
  ~ contains (arb_of_arf (mkArf 3 (-4))) (1 / 5).
Proof.
  split; [c48|]. rewrite arb_of_arf_contains_iff. unfold arf2R. cbn [am ae]. simpl bpow. lra.
Qed.

(** C09: the double is not the closest one. *)
Lemma double_random_counterexample v : num_value rand48 (RAtom (ARandom 1340)) v ->
  exists d c, num_double rand48 100 (RAtom (ARandom 1340)) = Some d /\ is_double c /\
    Rabs (v - c) < Rabs (v - arf2R d).
Proof.
  intros H. simpl in H. eexists. exists (IZR 8628316884512281 * bpow radix2 (-54)).
  split; [c48|]. split.
  - apply generic_format_FLT. exists (Float radix2 8628316884512281 (-54)); [reflexivity| |]; simpl; lia.
  - unfold arf2R. cbn [am ae]. r48bound H 70%nat. simpl bpow.
    unfold Rabs. destruct (Rcase_abs _); destruct (Rcase_abs _); lra.
Qed.

Lemma double_rational_counterexample :
  exists d c, num_double rand48 0 (RRat (2 ^ 60 + 2 ^ 7 + 1 # 2 ^ 60)) = Some d /\ is_double c /\
    Rabs (IZR (2 ^ 60 + 2 ^ 7 + 1) / IZR (2 ^ 60) - c) < Rabs (IZR (2 ^ 60 + 2 ^ 7 + 1) / IZR (2 ^ 60) - arf2R d).
Proof.
  eexists. exists (IZR 4503599627370497 * bpow radix2 (-52)).
  split; [c48|]. split.
  - apply generic_format_FLT. exists (Float radix2 4503599627370497 (-52)); [reflexivity| |]; simpl; lia.
  - unfold arf2R. cbn [am ae]. simpl.
    unfold Rabs. destruct (Rcase_abs _); destruct (Rcase_abs _); lra.
Qed.

(** C11: wrong comparisons. *)
Lemma lt_integer_counterexample :
  num_lt_Z rand48 1 0 (RRat (21 # 2)) 11 = Some false /\ 21 / 2 < 11.
Proof. split; [c48|lra]. Qed.

Lemma gt_integer_counterexample :
  num_gt_Z rand48 1 0 (RRat (21 # 2)) 11 = Some true /\ 21 / 2 < 11.
Proof. split; [c48|lra]. Qed.

Lemma lt_arf_counterexample :
  num_lt_arf rand48 1 0 (RRat (1 # 3)) (mkArf 11 (-5)) = Some false /\ 1 / 3 < arf2R (mkArf 11 (-5)).
Proof. split; [c48|]. unfold arf2R. cbn [am ae]. simpl bpow. lra. Qed.

Lemma lt_rational_random_counterexample w : num_value rand48 (RAtom (ARandom 38)) w ->
  num_lt rand48 10 100 (RRat (1 # 3)) (RAtom (ARandom 38)) = Some false /\ 1 / 3 < w.
Proof. intros H. split; [c48|]. simpl in H. r48bound H 20%nat. lra. Qed.

Lemma lt_product_counterexample v w :
  num_value rand48 (RProd [(ARandom 1337, 1%nat); (ARandom 1351, 1%nat)]) v ->
  num_value rand48 (RAtom (ARandom 1337)) w ->
  num_lt rand48 10 200 (RProd [(ARandom 1337, 1%nat); (ARandom 1351, 1%nat)]) (RAtom (ARandom 1337)) = Some false /\ v < w.
Proof.
  intros (y & z & Hy & (y2 & z2 & Hz & Hw & ->) & ->) H. simpl in *. subst z2. split; [c48|].
  r48bound Hy 20%nat. r48bound Hz 20%nat. r48bound H 20%nat.
  rewrite (stream_value_unique _ _ _ Hy H). nra.
Qed.

Definition sliver : Q := 2240495663216333760756 # (100 * 2 ^ 66).

Lemma lt_q_counterexample v : num_value rand48 (RAtom (ARandom 1337)) v ->
  forall mag_up, (forall r, 0 <= arf2R r -> arf2R r <= arf2R (mag_up r) <= 11 / 10 * arf2R r) ->
  num_lt_q rand48 mag_up 1 100 (RAtom (ARandom 1337)) sliver = Some true /\ Q2R sliver < v.
Proof.
  intros H mag_up Hm. split.
  - assert (Ha : num_arb rand48 100 (RAtom (ARandom 1337)) 64 =
       Some (mkArb (mkArf 22404956632163337607 (-66)) (Some (mkArf 1 (-67))))) by (c48).
    unfold num_lt_q. cbn [num_cmpq_loop]. unfold ARB_PRECISION_FAST. rewrite Ha.
    unfold opq_lt, op_lt, arb_lt, arb_hi, arb_lo, arb_times_den, arb_mul, mk_ball, rad2, round_mid, round_err.
    cbn [rad mid arb_of_Z arb_of_arf option_map opt2].
    match goal with |- context [mag_up ?e] => set (r := e) end.
    assert (Hr : arf2R r = IZR (Zpos (Qden sliver)) * bpow radix2 (-67)).
    { unfold r. repeat rewrite ?arf_add_exact_spec, ?arf_mul_exact_spec, ?arf_abs_spec, ?arf_of_Z_spec, ?arf_zero_spec.
      unfold arf2R. cbn [am ae]. rewrite (Rabs_pos_eq (IZR _)) by (apply IZR_le; lia). ring. }
    destruct (Hm r) as [_ Hu].
    { rewrite Hr. apply Rmult_le_pos; [apply IZR_le; lia|left; apply bpow2_pos]. }
    destruct (arf_ltb _ _) eqn:E; [reflexivity|]. exfalso.
    apply arf_ltb_false in E. revert E.
    repeat rewrite ?arf_add_exact_spec, ?arf_sub_exact_spec, ?arf_mul_exact_spec, ?arf_of_Z_spec, ?arf_zero_spec.
    rewrite Hr in Hu. replace (arf2R (mkArf 22404956632163337607 (-66))) with (22404956632163337607 * bpow radix2 (-66)) by reflexivity.
    set (u := arf2R (mag_up r)) in *. clearbody u. unfold sliver in *. cbn [Qnum Qden] in *.
    change (bpow radix2 (-66)) with (/ IZR (2 ^ 66)). change (bpow radix2 (-67)) with (/ IZR (2 ^ 67)) in Hu.
    change (Zpos (100 * 2 ^ 66)) with (100 * 2 ^ 66)%Z in *. change (2 ^ 66)%Z with 73786976294838206464%Z in *.
    change (2 ^ 67)%Z with 147573952589676412928%Z in *. change (100 * 73786976294838206464)%Z with 7378697629483820646400%Z in *.
    intros E. lra.
  - simpl in H. r48bound H 80%nat. unfold Q2R, sliver. simpl. lra.
Qed.

(** Closed forms. *)
Lemma prod_accuracy_refuted : exists ms prec a v, num_ok rand48 (RProd ms) /\ num_value rand48 (RProd ms) v /\
  (2 <= prec)%Z /\ num_arf rand48 100 (RProd ms) prec = Some a /\ ~ accurate prec a v.
Proof.
  exists [(ARandom 615, 1%nat); (ARandom 2844, 1%nat)], 4%Z.
  destruct (num_value_exists rand48 (RProd [(ARandom 615, 1%nat); (ARandom 2844, 1%nat)])) as [v Hv].
  destruct (prod_accuracy_counterexample v Hv) as (a & Ha & Hn). exists a, v.
  split; [|repeat split; try assumption; lia].
  split; [discriminate|]. intros b k [[= <- <-]|[[= <- <-]|[]]]; (split; [|lia]).
  - exists 0%nat. vm_compute. reflexivity.
  - exists 0%nat. vm_compute. reflexivity.
Qed.
Lemma arb_random_refuted : exists v b, num_value rand48 (RAtom (ARandom 1337)) v /\
  num_arb rand48 100 (RAtom (ARandom 1337)) 64 = Some b /\ ~ contains b v.
Proof.
  destruct (num_value_exists rand48 (RAtom (ARandom 1337))) as [v Hv].
  destruct (arb_random_counterexample v Hv) as (b & H). exists v, b. auto.
Qed.
Lemma double_random_refuted : exists v d c, num_value rand48 (RAtom (ARandom 1340)) v /\
  num_double rand48 100 (RAtom (ARandom 1340)) = Some d /\ is_double c /\ Rabs (v - c) < Rabs (v - arf2R d).
Proof.
  destruct (num_value_exists rand48 (RAtom (ARandom 1340))) as [v Hv].
  destruct (double_random_counterexample v Hv) as (d & c & H). exists v, d, c. auto.
Qed.
Lemma double_rational_refuted : exists q v d c, num_value rand48 (RRat q) v /\
  num_double rand48 0 (RRat q) = Some d /\ is_double c /\ Rabs (v - c) < Rabs (v - arf2R d).
Proof.
  destruct double_rational_counterexample as (d & c & H1 & H2 & H3).
  exists (2 ^ 60 + 2 ^ 7 + 1 # 2 ^ 60), (IZR (2 ^ 60 + 2 ^ 7 + 1) / IZR (2 ^ 60)), d, c.
  split; [reflexivity|]. split; [exact H1|]. split; [exact H2|exact H3].
Qed.
Lemma lt_rational_random_refuted : exists w, num_value rand48 (RAtom (ARandom 38)) w /\
  num_lt rand48 10 100 (RRat (1 # 3)) (RAtom (ARandom 38)) = Some false /\ 1 / 3 < w.
Proof.
  destruct (num_value_exists rand48 (RAtom (ARandom 38))) as [w Hw]. exists w. split; [exact Hw|].
  exact (lt_rational_random_counterexample w Hw).
Qed.
Lemma lt_product_refuted : exists v w,
  num_value rand48 (RProd [(ARandom 1337, 1%nat); (ARandom 1351, 1%nat)]) v /\ num_value rand48 (RAtom (ARandom 1337)) w /\
  num_lt rand48 10 200 (RProd [(ARandom 1337, 1%nat); (ARandom 1351, 1%nat)]) (RAtom (ARandom 1337)) = Some false /\ v < w.
Proof.
  destruct (num_value_exists rand48 (RProd [(ARandom 1337, 1%nat); (ARandom 1351, 1%nat)])) as [v Hv].
  destruct (num_value_exists rand48 (RAtom (ARandom 1337))) as [w Hw]. exists v, w.
  split; [exact Hv|]. split; [exact Hw|]. exact (lt_product_counterexample v w Hv Hw).
Qed.
Lemma lt_q_refuted : exists v q, num_value rand48 (RAtom (ARandom 1337)) v /\ forall mag_up,
  (forall r, 0 <= arf2R r -> arf2R r <= arf2R (mag_up r) <= 11 / 10 * arf2R r) ->
  num_lt_q rand48 mag_up 1 100 (RAtom (ARandom 1337)) q = Some true /\ Q2R q < v.
Proof.
  destruct (num_value_exists rand48 (RAtom (ARandom 1337))) as [v Hv]. exists v, sliver. split; [exact Hv|].
  intros mag_up Hm. exact (lt_q_counterexample v Hv mag_up Hm).
Qed.

(** C08: cmp of a product is -1 although the product is above the ball (the number 1/1024). *)
Definition five : list (atom * nat) := [(ARandom 1387, 1%nat); (ARandom 1628, 1%nat); (ARandom 2029, 1%nat); (ARandom 2124, 1%nat); (ARandom 2205, 1%nat)].
Lemma cmp_product_counterexample v : num_value rand48 (RProd five) v ->
  num_cmp rand48 100 (RProd five) (arb_of_arf (mkArf 1 (-10))) = Some (-1)%Z /\ arf2R (mkArf 1 (-10)) < v.
Proof.
  intros (y1 & z1 & H1 & (y2 & z2 & H2 & (y3 & z3 & H3 & (y4 & z4 & H4 & (y5 & z5 & H5 & H6 & ->) & ->) & ->) & ->) & ->).
  simpl in *. subst z5. split; [c48|].
  r48bound H1 24%nat. r48bound H2 24%nat. r48bound H3 24%nat. r48bound H4 24%nat. r48bound H5 24%nat.
  unfold arf2R. cbn [am ae]. simpl bpow.
  change (IZR (Z.pow_pos 2 10)) with 1024.
  assert (A45 : 12031724 / 16777216 * (827350 / 16777216) <= y4 * y5) by (apply Rmult_le_compat; lra).
  assert (A345 : 987871 / 16777216 * (12031724 / 16777216 * (827350 / 16777216)) <= y3 * (y4 * y5)) by (apply Rmult_le_compat; lra).
  assert (A2 : 13670643 / 16777216 * (987871 / 16777216 * (12031724 / 16777216 * (827350 / 16777216))) <= y2 * (y3 * (y4 * y5))) by (apply Rmult_le_compat; lra).
  assert (A1 : 9681073 / 16777216 * (13670643 / 16777216 * (987871 / 16777216 * (12031724 / 16777216 * (827350 / 16777216)))) <= y1 * (y2 * (y3 * (y4 * y5)))) by (apply Rmult_le_compat; lra).
  replace (y1 * 1 * (y2 * 1 * (y3 * 1 * (y4 * 1 * (y5 * 1 * 1))))) with (y1 * (y2 * (y3 * (y4 * y5)))) by ring. lra.
Qed.
Lemma cmp_product_refuted : exists ms v p, num_ok rand48 (RProd ms) /\ num_value rand48 (RProd ms) v /\
  num_cmp rand48 100 (RProd ms) (arb_of_arf p) = Some (-1)%Z /\ arf2R p < v.
Proof.
  exists five. destruct (num_value_exists rand48 (RProd five)) as [v Hv]. exists v, (mkArf 1 (-10)).
  split; [|split; [exact Hv|exact (cmp_product_counterexample v Hv)]].
  split; [discriminate|]. intros b k H. unfold five in H.
  repeat (destruct H as [[= <- <-]|H]; [split; [first [exists 0%nat; vm_compute; reflexivity|exists 1%nat; vm_compute; reflexivity|exists 2%nat; vm_compute; reflexivity|exists 3%nat; vm_compute; reflexivity|exists 4%nat; vm_compute; reflexivity|exists 5%nat; vm_compute; reflexivity]|lia]|]). destruct H.
Qed.
