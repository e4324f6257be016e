(** Property C114: products that are loaded from archives. *)
From Coq Require Import ZArith QArith Qcanon Bool List Reals Lia Lra.
From Flocq Require Import Core.
From Verif Require Import Arf Arb SpecArf ArfProofs Real SpecReal RealProofs RealProofs2 RealProofs3 PropReal Rand48Proofs Fast48 Gen Machine IntExponents SpecIntExponents.
Import ListNotations.
Open Scope R_scope.

Definition to_nat (ms : list (atom * Z)) : list (atom * nat) := map (fun m => (fst m, Z.to_nat (snd m))) ms.
Lemma factors_to_nat ms : factors (to_nat ms) = flat_map (fun m => repeat (fst m) (Z.to_nat (snd m))) ms.
Proof. unfold factors, to_nat. induction ms as [|[a k] ms IH]; cbn; [reflexivity|]. rewrite IH. reflexivity. Qed.
Lemma degree_to_nat ms : (forall a k, In (a, k) ms -> (0 < k)%Z) -> Z.of_nat (length (factors (to_nat ms))) = int_degree ms.
Proof.
  rewrite factors_to_nat. induction ms as [|[a k] ms IH]; intros P; [reflexivity|]. cbn [flat_map int_degree fold_right fst snd]. rewrite app_length, repeat_length, Nat2Z.inj_add.
  rewrite IH by (intros b j Hb; apply (P b j); right; exact Hb). rewrite Z2Nat.id by (pose proof (P a k (or_introl eq_refl)); lia). reflexivity.
Qed.
Lemma degree_positive ms : ms <> [] -> (forall a k, In (a, k) ms -> (0 < k)%Z) -> (0 < int_degree ms)%Z.
Proof.
  intros N P. assert (G : forall l, (forall a k, In (a, k) l -> (0 < k)%Z) -> (0 <= int_degree l)%Z).
  { induction l as [|[b j] l IH]; intros Q; [cbn; lia|]. cbn [int_degree fold_right snd]. pose proof (Q b j (or_introl eq_refl)). assert (0 <= int_degree l)%Z by (apply IH; intros c i H'; apply (Q c i); right; exact H'). unfold int_degree in *. lia. }
  destruct ms as [|[a k] ms]; [contradiction|]. cbn [int_degree fold_right snd]. pose proof (P a k (or_introl eq_refl)). assert (0 <= int_degree ms)%Z by (apply G; intros c i H'; apply (P c i); right; exact H'). unfold int_degree in *. lia.
Qed.
Lemma value_to_nat rng ms : forall v, (forall a k, In (a, k) ms -> (0 < k)%Z) -> int_prod_value rng ms v -> prod_value rng (to_nat ms) v.
Proof.
  induction ms as [|[a k] ms IH]; intros v P; cbn [int_prod_value to_nat map prod_value fst snd]; [auto|]. intros (y & z & Hy & Hz & ->). exists y, z. split; [exact Hy|].
  split; [apply IH; [intros b j Hb; apply (P b j); right; exact Hb|exact Hz]|]. f_equal. pose proof (P a k (or_introl eq_refl)). destruct k as [|k|k]; [lia|reflexivity|lia].
Qed.

(** * Positive exponents *)
(** The approximations are those of the products that the library creates itself, *)
Theorem C114_positive_partial : forall rng fuel ms prec, ms <> [] -> (forall a k, In (a, k) ms -> (0 < k)%Z) ->
  int_arf_prod rng fuel ms prec = match arf_prod rng fuel (map (fun m => (fst m, Z.to_nat (snd m))) ms) prec with None => Waiting | Some a => Approximated a end.
Proof.
  intros rng fuel ms prec N P. fold (to_nat ms). pose proof (degree_positive ms N P) as D. unfold int_arf_prod, arf_prod. rewrite degree_to_nat by exact P. rewrite factors_to_nat.
  destruct (Z.leb_spec (int_degree ms * 2 + (int_degree ms - 1) + 1) 0); [lia|]. destruct (mul_factors _ _ _ _ _); reflexivity.
Qed.
(** so they are as good as those (C06), *)
Theorem C114_accurate_partial : forall rng fuel ms v prec a, ms <> [] -> (forall a k, In (a, k) ms -> atom_ok rng a /\ (0 < k)%Z) -> int_prod_value rng ms v -> (1 <= prec)%Z ->
  int_arf_prod rng fuel ms prec = Approximated a -> accurate (prec - 1) a v.
Proof.
  intros rng fuel ms v prec a N P V Hp H. assert (P' : forall a k, In (a, k) ms -> (0 < k)%Z) by (intros b k Hb; apply (P b k Hb)). rewrite C114_positive_partial in H by assumption.
  destruct (arf_prod _ _ _ _) as [b|] eqn:E; [|discriminate]. injection H as <-. apply (C06_product_accurate rng fuel (to_nat ms) v prec b).
  - split; [destruct ms; [contradiction|discriminate]|]. intros c k Hc. apply in_map_iff in Hc. destruct Hc as ([d j] & [= <- <-] & Hd). destruct (P d j Hd) as [A B]. split; [exact A|]. cbn [snd]. lia.
  - apply value_to_nat; [exact P'|exact V].
  - exact Hp.
  - cbn [num_arf]. fold (clamp prec). rewrite clamp_pos by exact Hp. exact E.
Qed.
(** and they are returned. *)
Theorem C114_returns_partial : forall rng ms prec, ms <> [] -> (forall a k, In (a, k) ms -> atom_ok rng a /\ (0 < k)%Z) -> (1 <= prec)%Z ->
  exists fuel0 a, forall fuel, (fuel0 <= fuel)%nat -> int_arf_prod rng fuel ms prec = Approximated a.
Proof.
  intros rng ms prec N P Hp. assert (P' : forall a k, In (a, k) ms -> (0 < k)%Z) by (intros b k Hb; apply (P b k Hb)).
  destruct (C06_arf_returns rng (RProd (to_nat ms)) prec) as (f & a & F).
  { split; [destruct ms; [contradiction|discriminate]|]. intros c k Hc. apply in_map_iff in Hc. destruct Hc as ([d j] & [= <- <-] & Hd). destruct (P d j Hd) as [A B]. split; [exact A|]. cbn [snd]. lia. }
  exists f, a. intros fuel L. specialize (F fuel L). cbn [num_arf] in F. fold (clamp prec) in F. rewrite clamp_pos in F by exact Hp. rewrite C114_positive_partial by assumption. fold (to_nat ms). rewrite F. reflexivity.
Qed.

(** * Other exponents *)
(** A factor with an exponent that is not positive does not matter: numbers with different values have the same approximations. *)
Theorem C114_ignored_refuted : forall rng fuel a b k ms prec, (k <= 0)%Z -> int_arf_prod rng fuel ((a, k) :: ms) prec = int_arf_prod rng fuel ((b, k) :: ms) prec.
Proof.
  intros rng fuel a b k ms prec H. unfold int_arf_prod. cbn [int_degree fold_right snd flat_map fst]. replace (Z.to_nat k) with O by lia. reflexivity.
Qed.
(** For example, the number x^-1 y^2 is approximated by (about) y^2, which is less than a third of it. *)
Theorem C114_negative_refuted : exists v a, int_prod_value rand48 [(ARandom 1337, -1); (ARandom 1338, 2)]%Z v /\ int_arf_prod rand48 100 [(ARandom 1337, -1); (ARandom 1338, 2)]%Z 10 = Approximated a /\
  0 < 3 * arf2R a < v.
Proof.
  destruct (stream_value_exists (rand48 1337)) as [x X]. destruct (stream_value_exists (rand48 1338)) as [y Y].
  exists (powerRZ x (-1) * (powerRZ y 2 * 1)), (mkArf 1912 (-17)). split.
  { exists x, (powerRZ y 2 * 1). split; [exact X|]. split; [exists y, 1; split; [exact Y|split; reflexivity]|reflexivity]. }
  split; [c48|]. specialize (X 10%nat). specialize (Y 10%nat). replace (prefix (rand48 1337) 10) with 310%Z in X by c48. replace (prefix (rand48 1338) 10) with 123%Z in Y by c48.
  change (bpow radix2 (Z.of_nat 10)) with 1024 in X, Y. unfold arf2R. cbn [am ae powerRZ]. change (Pos.to_nat 1) with 1%nat. change (Pos.to_nat 2) with 2%nat. cbn [pow]. change (bpow radix2 (-17)) with (/ 131072).
  split; [lra|]. apply (Rmult_lt_reg_l x); [lra|]. replace (x * (/ (x * 1) * (y * (y * 1) * 1))) with (y * y) by (field; lra). assert (Ky : 123 / 1024 * (123 / 1024) <= y * y) by (apply Rmult_le_compat; lra). lra.
Qed.
(** There is no precision when the exponents do not add up to a positive number. *)
Theorem C114_degree_refuted : forall rng fuel ms prec, (int_degree ms <= 0)%Z -> int_arf_prod rng fuel ms prec = Undefined.
Proof. intros rng fuel ms prec H. unfold int_arf_prod. destruct (Z.leb_spec (int_degree ms * 2 + (int_degree ms - 1) + 1) 0); [reflexivity|lia]. Qed.
(** Multiplying x^-1 y^2 with x gives a number that is not equal to y^2. *)
Theorem C114_inverse_refuted : forall over i j, (i < j)%Z -> exists p q, mgen_mul over (MProd [(i, -1); (j, 2)]%Z) (MAtom i) = Some (Ok (MProd p)) /\ mgen_mul over (MAtom j) (MAtom j) = Some (Ok (MProd q)) /\
  mgen_eqb (MProd p) (MProd q) = false /\ forall rho, rho i <> 0 -> monomial_value rho p = monomial_value rho q.
Proof.
  intros over i j L. exists [(i, 0); (j, 2)]%Z, [(j, 2)]%Z. split; [unfold mgen_mul, mpersist, mgen_eqb, mmons; cbn [mmerge]; rewrite Z.ltb_irrefl, Z.eqb_refl; reflexivity|]. split; [unfold mgen_mul, mpersist, mgen_eqb; rewrite Z.eqb_refl; reflexivity|]. split.
  - cbn. destruct (Z.eqb_spec i j); [lia|]. reflexivity.
  - intros rho _. unfold monomial_value. cbn [fold_right fst snd powerRZ]. ring.
Qed.
Example C114_example : exists a, int_arf_prod rand48 100 [(ARandom 1337, 1); (ARandom 1338, 2)]%Z 10 = Approximated a /\ int_degree [(ARandom 1337, -1); (ARandom 1338, 1)]%Z = 0%Z.
Proof. eexists. split; [rewrite ?rand48_fast; vm_compute; reflexivity|reflexivity]. Qed.

(** * Exponents that are not negative *)
(** Factors with the exponent 0 are approximated like the product without them, *)
Definition occurring (ms : list (atom * Z)) : list (atom * Z) := filter (fun m => Z.ltb 0 (snd m)) ms.
Lemma occurring_degree ms : (forall a k, In (a, k) ms -> (0 <= k)%Z) -> int_degree (occurring ms) = int_degree ms.
Proof.
  induction ms as [|[a k] ms IH]; intros P; [reflexivity|]. pose proof (P a k (or_introl eq_refl)) as Pk. specialize (IH (fun b j H => P b j (or_intror H))).
  unfold occurring. cbn [filter snd]. fold (occurring ms). destruct (Z.ltb_spec 0 k); cbn [int_degree fold_right snd]; fold (int_degree ms); fold (int_degree (occurring ms)); lia.
Qed.
Lemma occurring_factors ms : flat_map (fun m : atom * Z => repeat (fst m) (Z.to_nat (snd m))) (occurring ms) = flat_map (fun m => repeat (fst m) (Z.to_nat (snd m))) ms.
Proof.
  induction ms as [|[a k] ms IH]; [reflexivity|]. unfold occurring. cbn [filter snd]. fold (occurring ms). destruct (Z.ltb_spec 0 k); cbn [flat_map fst snd]; rewrite IH; [reflexivity|].
  replace (Z.to_nat k) with O by lia. reflexivity.
Qed.
Lemma occurring_value rng ms : (forall a k, In (a, k) ms -> (0 <= k)%Z) -> forall v, int_prod_value rng ms v -> int_prod_value rng (occurring ms) v.
Proof.
  induction ms as [|[a k] ms IH]; intros P v; [exact (fun H => H)|]. intros (y & z & Hy & Hz & ->). pose proof (P a k (or_introl eq_refl)) as Pk. specialize (IH (fun b j H => P b j (or_intror H)) z Hz).
  unfold occurring. cbn [filter snd]. fold (occurring ms). destruct (Z.ltb_spec 0 k); [exists y, z; auto|]. replace k with 0%Z by lia. cbn [powerRZ]. rewrite Rmult_1_l. exact IH.
Qed.
Theorem C114_zeros_partial : forall rng fuel ms prec, (forall a k, In (a, k) ms -> (0 <= k)%Z) ->
  int_arf_prod rng fuel ms prec = int_arf_prod rng fuel (filter (fun m => Z.ltb 0 (snd m)) ms) prec.
Proof.
  intros rng fuel ms prec P. fold (occurring ms). unfold int_arf_prod. rewrite (occurring_degree ms P), occurring_factors. reflexivity.
Qed.
(** so that the approximations are right and returned if no exponent is negative and one of them is positive. *)
Theorem C114_nonnegative_partial : forall rng ms v prec, (forall a k, In (a, k) ms -> atom_ok rng a /\ (0 <= k)%Z) -> (exists a k, In (a, k) ms /\ (0 < k)%Z) -> int_prod_value rng ms v -> (1 <= prec)%Z ->
  (forall fuel a, int_arf_prod rng fuel ms prec = Approximated a -> accurate (prec - 1) a v) /\
  exists fuel0 a, forall fuel, (fuel0 <= fuel)%nat -> int_arf_prod rng fuel ms prec = Approximated a.
Proof.
  intros rng ms v prec P (b & j & Ib & Pj) V Hp. assert (P0 : forall a k, In (a, k) ms -> (0 <= k)%Z) by (intros a k I; apply (P a k I)).
  assert (N : occurring ms <> []). { intros E. assert (I : In (b, j) (occurring ms)) by (apply filter_In; split; [exact Ib|apply Z.ltb_lt, Pj]). rewrite E in I. destruct I. }
  assert (Q : forall a k, In (a, k) (occurring ms) -> atom_ok rng a /\ (0 < k)%Z).
  { intros a k I. apply filter_In in I. destruct I as [I K]. split; [apply (P a k I)|apply Z.ltb_lt, K]. }
  split.
  - intros fuel a H. rewrite (C114_zeros_partial rng fuel ms prec P0) in H. apply (C114_accurate_partial rng fuel (occurring ms) v prec a N Q (occurring_value rng ms P0 v V) Hp H).
  - destruct (C114_returns_partial rng (occurring ms) prec N Q Hp) as (f & a & F). exists f, a. intros fuel L. rewrite (C114_zeros_partial rng fuel ms prec P0). exact (F fuel L).
Qed.
Example C114_zero_case : (forall a k, In (a, k) [(ARandom 1337, 0); (ARandom 1338, 2)]%Z -> (0 <= k)%Z) /\ int_degree [(ARandom 1337, 0); (ARandom 1338, 2)]%Z = 2%Z /\
  exists a, int_arf_prod rand48 100 [(ARandom 1337, 0); (ARandom 1338, 2)]%Z 10 = Approximated a.
Proof.
  split; [intros a k [[= _ <-]|[[= _ <-]|[]]]; lia|]. split; [reflexivity|]. eexists. rewrite ?rand48_fast. vm_compute. reflexivity.
Qed.
