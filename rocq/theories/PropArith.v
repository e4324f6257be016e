(** Properties C01-C05 and C51: floating point numbers and balls. *)
From Coq Require Import ZArith QArith Bool List Reals Lia Lra Qreals.
From Flocq Require Import Core.
From Verif Require Import Arf Arb SpecArf ArfProofs ArbProofs RealProofs6.
Import ListNotations.
Open Scope R_scope.

(** * C01 Arf arithmetic is correctly rounded *)
Theorem C01_add_correctly_rounded : forall prec md a b, (0 < prec)%Z ->
  arf2R (arf_add prec md a b) = rounded prec md (arf2R a + arf2R b).
Proof. exact arf_add_spec. Qed.

Theorem C01_sub_correctly_rounded : forall prec md a b, (0 < prec)%Z ->
  arf2R (arf_sub prec md a b) = rounded prec md (arf2R a - arf2R b).
Proof. exact arf_sub_spec. Qed.

Theorem C01_mul_correctly_rounded : forall prec md a b, (0 < prec)%Z ->
  arf2R (arf_mul prec md a b) = rounded prec md (arf2R a * arf2R b).
Proof. exact arf_mul_spec. Qed.

Theorem C01_div_correctly_rounded : forall prec md a b, (0 < prec)%Z ->
  match arf_div prec md a b with
  | None => arf2R b = 0
  | Some c => arf2R b <> 0 /\ arf2R c = rounded prec md (arf2R a / arf2R b)
  end.
Proof. exact arf_div_spec. Qed.

Theorem C01_exact_operations : forall a b,
  arf2R (arf_add_exact a b) = arf2R a + arf2R b /\
  arf2R (arf_sub_exact a b) = arf2R a - arf2R b /\
  arf2R (arf_mul_exact a b) = arf2R a * arf2R b /\
  arf2R (arf_neg a) = - arf2R a /\ arf2R (arf_abs a) = Rabs (arf2R a).
Proof.
  exact (fun a b => conj (arf_add_exact_spec a b) (conj (arf_sub_exact_spec a b)
    (conj (arf_mul_exact_spec a b) (conj (arf_neg_spec a) (arf_abs_spec a))))).
Qed.

(** 1/3 to 4 bits: 11/32 = 0.34375 *)
Example C01_example : arf_div 4 NEAR (arf_of_Z 1) (arf_of_Z 3) = Some (mkArf 11 (-5)) /\
  arf_add 2 CEIL (arf_of_Z 4) (arf_of_Z 1) = mkArf 3 1 /\ arf_mul 2 FLOOR (arf_of_Z 5) (arf_of_Z (-1)) = mkArf (-3) 1.
Proof. repeat split; vm_compute; reflexivity. Qed.

(** * C02 structure of Arf *)
Theorem C02_mantissa_exponent : forall a,
  arf2R a = IZR (arf_mantissa a) * bpow radix2 (arf_exponent a) /\
  (arf2R a <> 0 -> Z.odd (arf_mantissa a) = true) /\ (arf2R a = 0 -> arf_mantissa a = 0%Z).
Proof. exact arf_mantissa_odd. Qed.

Theorem C02_floor : forall a, IZR (arf_floor a) <= arf2R a < IZR (arf_floor a) + 1.
Proof. exact arf_floor_bounds. Qed.

Theorem C02_ceil : forall a, IZR (arf_ceil a) - 1 < arf2R a <= IZR (arf_ceil a).
Proof. exact arf_ceil_bounds. Qed.

Theorem C02_logb : forall a, arf2R a <> 0 ->
  bpow radix2 (arf_logb a) <= Rabs (arf2R a) < bpow radix2 (arf_logb a + 1).
Proof. exact arf_logb_spec. Qed.

Theorem C02_shifts : forall a n,
  arf2R (arf_shl a n) = arf2R a * bpow radix2 n /\ arf2R (arf_shr a n) = arf2R a * bpow radix2 (- n).
Proof. exact (fun a n => conj (arf_shl_spec a n) (arf_shl_spec a (- n))). Qed.

Theorem C02_comparisons : forall a b,
  (arf_ltb a b = true <-> arf2R a < arf2R b) /\ (arf_leb a b = true <-> arf2R a <= arf2R b) /\
  (arf_eqb a b = true <-> arf2R a = arf2R b).
Proof. exact (fun a b => conj (arf_ltb_spec a b) (conj (arf_leb_spec a b) (arf_eqb_spec a b))). Qed.

(** Conversion to double: nearest, ties to even (Arf::operator double). *)
Theorem C02_to_double : forall a,
  arf2R (arf_to_double a) = round radix2 (FLT_exp (-1074) 53) ZnearestE (arf2R a).
Proof. exact arf_to_double_spec. Qed.

Example C02_example : arf_mantissa (mkArf (-12) 5) = (-3)%Z /\ arf_exponent (mkArf (-12) 5) = 7%Z /\
  arf_floor (mkArf (-3) (-1)) = (-2)%Z /\ arf_ceil (mkArf (-3) (-1)) = (-1)%Z /\ arf_logb (mkArf 5 (-2)) = 0%Z.
Proof. repeat split; vm_compute; reflexivity. Qed.

(** * C03 comparisons of balls decide exactly what can be decided *)
Theorem C03_lt : forall x y, arb_wf x -> arb_wf y -> tri Rlt x y (op_lt x y).
Proof. exact op_lt_spec. Qed.
Theorem C03_gt : forall x y, arb_wf x -> arb_wf y -> tri Rgt x y (op_gt x y).
Proof. exact op_gt_spec. Qed.
Theorem C03_le : forall x y, arb_wf x -> arb_wf y -> tri Rle x y (op_le x y).
Proof. exact op_le_spec. Qed.
Theorem C03_ge : forall x y, arb_wf x -> arb_wf y -> tri Rge x y (op_ge x y).
Proof. exact op_ge_spec. Qed.
Theorem C03_eq : forall x y, arb_wf x -> arb_wf y -> tri (@eq R) x y (op_eq x y).
Proof. exact op_eq_spec. Qed.
Theorem C03_ne : forall x y, arb_wf x -> arb_wf y -> tri (fun p q => p <> q) x y (op_ne x y).
Proof. exact op_ne_spec. Qed.

Example C03_example :
  let x := mkArb (arf_of_Z 1) (Some (arf_of_Z 1)) in
  let y := mkArb (arf_of_Z 3) (Some (arf_of_Z 1)) in
  let z := mkArb (arf_of_Z 5) (Some (arf_of_Z 1)) in
  arb_wfb x = true /\ arb_wfb y = true /\ op_lt x y = None /\ op_le x y = Some true /\ op_lt x z = Some true /\
  op_gt x y = Some false /\ op_eq x y = None /\ op_ne x z = Some true.
Proof. repeat split; vm_compute; reflexivity. Qed.

(** * C04 comparisons of balls with rationals [n/d] *)
Theorem C04_sound : forall mag_up, mag_up_ok mag_up -> forall x n d, arb_wf x -> (0 < d)%Z ->
  sound Rlt x (IZR n / IZR d) (opq_lt mag_up x n d) /\ sound Rgt x (IZR n / IZR d) (opq_gt mag_up x n d) /\
  sound Rle x (IZR n / IZR d) (opq_le mag_up x n d) /\ sound Rge x (IZR n / IZR d) (opq_ge mag_up x n d) /\
  sound (@eq R) x (IZR n / IZR d) (opq_eq mag_up x n d).
Proof.
  exact (fun mag_up Hm x n d Wx Hd => conj (opq_lt_sound mag_up Hm x n d Wx Hd) (conj (opq_gt_sound mag_up Hm x n d Wx Hd)
    (conj (opq_le_sound mag_up Hm x n d Wx Hd) (conj (opq_ge_sound mag_up Hm x n d Wx Hd) (opq_eq_sound mag_up Hm x n d Wx Hd))))).
Qed.

(** The code's [!=] answers [==]: it claims that [1/2 != 1/2]. *)
Theorem C56_ne_refuted : exists x n d, arb_wf x /\ (0 < d)%Z /\
  ~ sound (fun p q => p <> q) x (IZR n / IZR d) (opq_ne (fun r => r) x n d).
Proof. exact opq_ne_counterexample. Qed.

Example C04_example : opq_lt (fun r => r) (mkArb (arf_of_Z 1) (Some (mkArf 1 (-3)))) 7 6 = Some true /\
  opq_lt (fun r => r) (mkArb (arf_of_Z 1) (Some (mkArf 1 (-3)))) 9 8 = None /\ mag_up_ok (fun r => r).
Proof. repeat split; try (vm_compute; reflexivity). intros r _. lra. Qed.

(** * C05 the interval encloses the ball *)
Theorem C05_interval_encloses : forall x lo hi, arb_interval x = Some (lo, hi) ->
  forall v, contains x v -> arf2R lo <= v <= arf2R hi.
Proof. exact arb_interval_spec. Qed.

Example C05_example : arb_interval (mkArb (mkArf 19 (-2)) (Some (mkArf 1 (-3)))) = Some (mkArf 9 (-1), mkArf 10 (-1)).
Proof. vm_compute. reflexivity. Qed.

(** * C51 ball arithmetic encloses *)
Theorem C51_add_encloses : forall mag_up prec x y u v, mag_up_ok mag_up -> prec_ok prec ->
  arb_wf x -> arb_wf y -> contains x u -> contains y v -> contains (arb_add mag_up prec x y) (u + v).
Proof. exact arb_add_contains. Qed.
Theorem C51_sub_encloses : forall mag_up prec x y u v, mag_up_ok mag_up -> prec_ok prec ->
  arb_wf x -> arb_wf y -> contains x u -> contains y v -> contains (arb_sub mag_up prec x y) (u - v).
Proof. exact arb_sub_contains. Qed.
Theorem C51_mul_encloses : forall mag_up prec x y u v, mag_up_ok mag_up -> prec_ok prec ->
  arb_wf x -> arb_wf y -> contains x u -> contains y v -> contains (arb_mul mag_up prec x y) (u * v).
Proof. exact arb_mul_contains. Qed.
Theorem C51_div_encloses : forall mag_up prec x y u v, mag_up_ok mag_up -> (0 < prec)%Z ->
  arb_wf x -> arb_wf y -> contains x u -> contains y v -> contains (arb_div mag_up prec x y) (u / v).
Proof. exact arb_div_contains. Qed.
Theorem C51_neg_encloses : forall x u, contains x u -> contains (arb_neg x) (- u).
Proof. exact arb_neg_contains. Qed.
Theorem C51_add_exact : forall mag_up prec x y a b, (forall r, arf2R r = 0 -> arf2R (mag_up r) = 0) -> (0 < prec)%Z ->
  rad x = Some a -> rad y = Some b -> arf2R a = 0 -> arf2R b = 0 -> fits prec (arf2R (mid x) + arf2R (mid y)) ->
  exists r, rad (arb_add mag_up (Some prec) x y) = Some r /\ arf2R r = 0 /\
    arf2R (mid (arb_add mag_up (Some prec) x y)) = arf2R (mid x) + arf2R (mid y).
Proof. exact arb_add_exact. Qed.
Theorem C51_mul_exact : forall mag_up prec x y a b, (forall r, arf2R r = 0 -> arf2R (mag_up r) = 0) -> (0 < prec)%Z ->
  rad x = Some a -> rad y = Some b -> arf2R a = 0 -> arf2R b = 0 -> fits prec (arf2R (mid x) * arf2R (mid y)) ->
  exists r, rad (arb_mul mag_up (Some prec) x y) = Some r /\ arf2R r = 0 /\
    arf2R (mid (arb_mul mag_up (Some prec) x y)) = arf2R (mid x) * arf2R (mid y).
Proof. exact arb_mul_exact. Qed.
(** Operations on well-formed balls give well-formed balls. *)
Theorem C51_wf : forall mag_up, mag_up_ok mag_up -> forall prec p x y, (0 < p)%Z -> arb_wf x -> arb_wf y ->
  arb_wf (arb_add mag_up prec x y) /\ arb_wf (arb_mul mag_up prec x y) /\ arb_wf (arb_div mag_up p x y) /\ arb_wf (arb_neg x).
Proof.
  exact (fun mag_up Hm prec p x y Hp Wx Wy => conj (arb_add_wf mag_up prec x y Hm Wx Wy) (conj (arb_mul_wf mag_up prec x y Hm Wx Wy)
    (conj (arb_div_wf mag_up p x y Hm Hp Wx Wy) (arb_neg_wf x Wx)))).
Qed.

Example C51_example :
  let x := mkArb (arf_of_Z 3) (Some (mkArf 1 (-2))) in
  arb_wfb x = true /\ contains x (13 / 4) /\ arb_mul (fun r => r) (Some 2%Z) x x = mkArb (mkArf 2 2) (Some (mkArf 89 (-4))).
Proof.
  split; [reflexivity|]. split; [|vm_compute; reflexivity].
  unfold contains, arf2R. cbn [rad mid am ae arf_of_Z]. simpl bpow. unfold Rabs. destruct (Rcase_abs _); lra.
Qed.
